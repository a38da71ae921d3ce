{"id": "C01", "title": "Sparsity pattern is exactly the set of registered positions", "statement": "For a sparsity pattern of any shape and row capacity, after any sequence of addEntry calls followed by compress, getIndex(i,j) returns a valid slot exactly when (i,j) was registered; different positions get different slots, the slots are exactly 0..nValues-1, and re-registering a position changes nothing. addEntry aborts exactly when a row would need more distinct columns than its capacity.", "quantifier": "all shapes, capacities and addEntry histories (any length, any order, with repetitions)", "why_tests_cant": "the binary search and the in-place row packing have to be right for every row population and every insertion order; a test only samples a few rows", "anchors": ["src/lib/math/SparseMatrix.cpp: SparsityInfo::reinit, addEntry, compress, getIndex"]}
{"id": "C02", "title": "Entry lookup always terminates inside the arrays", "statement": "On any compressed pattern, looking up any in-range position terminates, never reads outside the column array (empty rows included), and reports 'absent' for unregistered positions.", "quantifier": "all compressed patterns reachable through the API and all (row, column) pairs", "why_tests_cant": "non-termination or an out-of-bounds probe of the hand-written binary search would only show for particular row lengths and columns", "anchors": ["src/lib/math/SparseMatrix.cpp: SparsityInfo::getIndex"]}
{"id": "C03", "title": "A sparse matrix behaves like a map from positions to numbers", "statement": "For any history of addValue, direct writes through operator(), zero() and reads on a compressed matrix: a read of a registered position returns the value determined by the writes to that position only, a read of an unregistered position returns 0, and a write to an unregistered position aborts without changing anything.", "quantifier": "all patterns and all operation sequences", "why_tests_cant": "aliasing of two positions in the packed value array would need a specific combination of pattern and history", "anchors": ["src/lib/math/SparseMatrix.cpp: operator(), value", "src/lib/math/SparseMatrix.h: addValue, zero"]}
{"id": "C04", "title": "Symmetric matrices are symmetric", "statement": "For a symmetric sparse matrix every operation (addEntry, addValue, read, write) on (i,j) has the same effect and result as on (j,i), for every history.", "quantifier": "all index pairs, all histories", "why_tests_cant": "index swapping must be consistent between registration, writing and reading", "anchors": ["src/lib/math/SparseMatrix.cpp: SparseSymMatrix::operator(), value", "src/lib/math/SparseMatrix.h: SparseSymMatrix::addEntry, addValue"]}
{"id": "C05", "title": "Sparse matrix-vector products are the mathematical products", "statement": "matBVprod / matBTVprod on a general sparse matrix add coef*A*V / coef*A^T*V (A read as a dense matrix with zeros at unregistered positions) to the result vector, for all shapes, patterns and values in exact arithmetic.", "quantifier": "all compressed matrices, all vectors of matching size, all coefficients", "why_tests_cant": "requires the row/column traversal to match the dense definition for every pattern", "anchors": ["src/lib/math/SparseMatrix.cpp: matBVprod(SparseMatrix), matBTVprod(SparseMatrix)"]}
{"id": "C06", "title": "Symmetric product uses both triangles", "statement": "matBVprod on a symmetric matrix adds coef*A*V where A is the full symmetric matrix (each stored off-diagonal value used twice, the diagonal once).", "quantifier": "all symmetric patterns and values, all vectors", "why_tests_cant": "the code skips columns whose vector component is below 1e-20 in magnitude, so the claim depends on the values", "anchors": ["src/lib/math/SparseMatrix.cpp: matBVprod(SparseSymMatrix)"]}
{"id": "C07", "title": "Construction from a coordinate list and text round trip", "statement": "A matrix built from any list of (row, column, value) entries holds at each position the last listed value and zero elsewhere; writing a matrix in coordinate text format and reading it back yields a matrix that compare() accepts, provided the number printer/parser round-trips.", "quantifier": "all entry lists (any order, duplicates), all compressed matrices", "why_tests_cant": "needs all orders and duplicate patterns", "anchors": ["src/lib/math/SparseMatrix.cpp: BaseSparseMatrix::reinit, writeCoordinateTextFormat, readCoordinateTextFormat, compare"]}
{"id": "C08", "title": "compare() is sound", "statement": "For matrices of finite numbers: if compare(A,B,th) returns true then A and B have the same shape and every pair of corresponding elements (zeros included) differs by at most th; compare(A,A,th) is true for every th >= 0.", "quantifier": "all pairs of compressed matrices and thresholds", "why_tests_cant": "must hold for all patterns/values, including NaN values", "anchors": ["src/lib/math/SparseMatrix.cpp: BaseSparseMatrix::compare"]}
{"id": "C09", "title": "Writing a matrix leaves the stream's formatting as it was", "statement": "writeCoordinateTextFormat restores the precision and the format flags of the output stream.", "quantifier": "all stream states", "why_tests_cant": "observable only for streams whose earlier flags are not already scientific", "anchors": ["src/lib/math/SparseMatrix.cpp: writeCoordinateTextFormat"]}
{"id": "C10", "title": "Every symmetric matrix carries its diagonal entries", "statement": "However a symmetric sparse matrix is created for n equations (constructor or reinit, also as a block of a block matrix), all n diagonal positions are registered, as the PARDISO interface requires.", "quantifier": "all sizes and creation paths", "why_tests_cant": "the different creation paths have to agree for all n", "anchors": ["src/lib/math/SparseMatrix.cpp: SparseSymMatrix::SparseSymMatrix, SparseSymMatrix::reinit", "src/lib/math/BlockSparseMatrix.h"]}
{"id": "C11", "title": "Sharing a sparsity pattern is memory safe", "statement": "After setSparsityInfo(spi) on any matrix (also one that already held values) followed by compress, every registered position of the new pattern can be read and written inside the allocated value array.", "quantifier": "all previous states of the matrix, all new patterns", "why_tests_cant": "the failure needs a particular previous state", "anchors": ["src/lib/math/SparseMatrix.cpp: BaseSparseMatrix::setSparsityInfo, compress"]}
{"id": "C12", "title": "Off-diagonal blocks are addressed bijectively", "statement": "For any number of blocks nb the 16-bit block index supports (up to 362), block(i,j) maps the pairs 1 <= i < j <= nb one-to-one onto the allocated off-diagonal matrices, and the matrix returned has the row count of block i and the column count of block j.", "quantifier": "all block counts", "why_tests_cant": "closed-form index arithmetic must be right for all nb, only nb=2 is exercised by the program", "anchors": ["src/lib/math/BlockSparseMatrix.h: block(i,j), constructor"]}
{"id": "C13", "title": "A block matrix behaves as one global symmetric matrix", "statement": "For any block partition, any addEntry history, compress, and any addValue/zero history: the value found at the block and local position of a global (i,j) is the sum of the values added to (i,j) or (j,i) since the last zero, and no other global position is affected.", "quantifier": "all partitions, sizes and histories", "why_tests_cant": "global-to-block translation and the swap to the upper triangle must be consistent for all positions", "anchors": ["src/lib/math/BlockSparseMatrix.h: getBlockAndPosition, addEntry, addValue, zero, compress"]}
{"id": "C14", "title": "A copied block matrix has the dimensions of the original", "statement": "The block matrix created from another one (as is done for the damping and mass matrices) reports the same total number of rows and columns and has the same blocks.", "quantifier": "all block matrices", "why_tests_cant": "the copy's size is not checked anywhere", "anchors": ["src/lib/math/BlockSparseMatrix.h: BlockSparseSymMatrix(BlockSparseSymMatrix*)"]}
{"id": "C15", "title": "The DoF table is a map from entities to sets of DoF types", "statement": "After any sequence of addDof registrations, isDofUsed/getDof answer exactly according to what was registered for that entity, getEntityDofs enumerates exactly the entity's registered DoFs once each, registering for one entity never changes another entity's set, and getNumberOfUsedDofs is the total number of registered (entity,type) pairs.", "quantifier": "all numbers of entities and all registration sequences", "why_tests_cant": "the table is one flat array with shifting offsets; errors depend on the order in which entities register", "anchors": ["src/lib/Dof.cpp: DofCollection::initDofTable, addDof, isDofUsed, getDof, getEntityDofs"]}
{"id": "C16", "title": "Equation numbers are a bijection with constrained DoFs first", "statement": "For every DoF table and every set of fixed DoFs (with at least one free DoF) the equation numbers assigned to the registered DoFs are pairwise distinct and are exactly 1..nDofs; fixed DoFs get exactly 1..nConstrained, free ones nConstrained+1..nDofs, and MPC equations get nDofs+1..nDofs+nMpc in order.", "quantifier": "all meshes, DoF registrations and constraint sets", "why_tests_cant": "must hold for every interleaving of constrained and free DoFs over elements and nodes", "anchors": ["src/lib/FEStorage.cpp: assignEquationNumbers, setConstrainedNodeDof"]}
{"id": "C17", "title": "Fixing DoFs is idempotent and counted once", "statement": "The number of constrained DoFs reported equals the number of distinct registered DoFs that have been fixed, whatever order and however often addFix/setConstrained is called.", "quantifier": "all sequences of fixations", "why_tests_cant": "repeated fixes are a usual input (edges shared by two constrained faces)", "anchors": ["src/lib/FEStorage.cpp: setConstrainedNodeDof, setConstrainedElementDof", "src/lib/FESolver.cpp: setConstrainedDofs"]}
{"id": "C18", "title": "A second solve starts from a clean state", "statement": "Running the initialisation sequence (initDofs, setConstrainedDofs, assignEquationNumbers) again on the same storage gives the same equation numbers and counters as the first time.", "quantifier": "all models", "why_tests_cant": "single-run tests never re-enter the initialisation", "anchors": ["src/lib/FEStorage.cpp: initDofs, assignEquationNumbers"]}
{"id": "C19", "title": "Assembly never hits an unregistered matrix position", "statement": "For every mesh whose node numbers are valid, after initSolutionData every position to which an element (node-node, node-element, element-element couplings) or an MPC equation adds a value is registered in the global matrix, so assembly cannot abort.", "quantifier": "all meshes, DoF registrations, constraint sets and MPC lists (as long as no row overflows its capacity)", "why_tests_cant": "the pattern is derived from the node topology while assembly loops over elements; agreement is needed for every mesh", "anchors": ["src/lib/FEStorage.cpp: initSolutionData, learnTopology, assembleGlobalEqMatrices", "src/lib/elements/element.h: assembleK"]}
{"id": "C20", "title": "The assembled matrix is the sum of the element matrices", "statement": "For every mesh whose elements have pairwise distinct nodes, after assembly the global matrix entry for any two equations is the sum over all elements of the element matrix entries belonging to these two equations (plus the MPC coefficients in the multiplier rows), and the load vector is the sum of the element load vectors.", "quantifier": "all meshes and element matrices", "why_tests_cant": "scatter loops, packed upper triangle order and block swapping interact", "anchors": ["src/lib/elements/element.h: assembleK", "src/lib/FEStorage.cpp: assembleGlobalEqMatrices"]}
{"id": "C21", "title": "Degenerated elements are assembled correctly", "statement": "The assembled matrix equals the sum of element contributions also for elements in which a node number is repeated (collapsed elements that the reader accepts).", "quantifier": "all elements, repeated nodes allowed", "why_tests_cant": "needs a collapsed element", "anchors": ["src/lib/elements/element.h: assembleK", "src/lib/FEReaders.cpp: getDegeneratedCells"]}
{"id": "C22", "title": "Element mass matrices end up in the global mass matrix", "statement": "assembleC adds the element damping matrix to the global damping matrix only, and assembleM adds the element mass matrix to the global mass matrix only.", "quantifier": "all elements and matrices", "why_tests_cant": "no element in the repository calls assembleM", "anchors": ["src/lib/elements/element.h: assembleC, assembleM"]}
{"id": "C23", "title": "Every solved equation has a diagonal entry", "statement": "After initSolutionData each equation to be solved (unknown DoFs and MPC multipliers) has its diagonal position registered in the matrix handed to the equation solver.", "quantifier": "all meshes and MPC lists", "why_tests_cant": "depends on the mesh connectivity and on MPCs", "anchors": ["src/lib/FEStorage.cpp: initSolutionData"]}
{"id": "C24", "title": "The linear solution satisfies the complete system", "statement": "If the equation solver solves its system exactly and every prescribed value is zero or above the 1e-20 threshold of the sparse product, then after LinearFESolver::solve the full system K*U = F + R holds in every row (constrained rows by the computed reactions), fixed DoFs have their prescribed values, free DoFs carry exactly the applied loads as R, and every MPC equation is satisfied. With the Gauss solver the procedure ends with a solution or a reported error, never with an out-of-bounds access.", "quantifier": "all assembled systems, fixations, loads and MPCs", "why_tests_cant": "block elimination and reaction recovery have to be consistent for all partitions", "anchors": ["src/lib/FESolver.cpp: LinearFESolver::solve, applyBoundaryConditions"]}
{"id": "C25", "title": "Gaussian elimination returns a solution", "statement": "Whenever the dense Gauss solver reports success, the returned vector satisfies A*x=b exactly (in exact arithmetic); it never divides by zero or leaves the matrix bounds, for every square system of up to 999 equations; larger ones are refused.", "quantifier": "all square matrices and right-hand sides", "why_tests_cant": "pivoting paths depend on values; no test can cover all", "anchors": ["src/lib/math/EquationSolver.cpp: GaussDenseEquationSolver::_solve"]}
{"id": "C26", "title": "The Gauss solver fails only for singular systems", "statement": "The dense Gauss solver reports failure only if the matrix is singular.", "quantifier": "all square matrices", "why_tests_cant": "depends on the magnitude of the entries, not only on regularity", "anchors": ["src/lib/math/EquationSolver.cpp: GaussDenseEquationSolver::_solve"]}
{"id": "C27", "title": "Boundary conditions: loads add up, the last fix wins, both scale with time", "statement": "After applyBoundaryConditions(t), the external load of each DoF has grown by t times the sum of all loads given for it, each fixed DoF has t times the value of the last fix given for it, and nothing else changes.", "quantifier": "all lists of loads and fixes, all t", "why_tests_cant": "several loads on one DoF and duplicates", "anchors": ["src/lib/FESolver.cpp: applyBoundaryConditions, addFix, addLoad", "src/lib/FEStorage.h: addValueR"]}
{"id": "C28", "title": "Time stepping moves forward and stops exactly at the end time", "statement": "In exact arithmetic, for any positive end time and any positive step requests, the sequence of nextStep calls gives strictly increasing times, never beyond the end time; nextStep returns false exactly when the end time is reached and the last accepted time is exactly the end time.", "quantifier": "all end times and all sequences of requested step sizes", "why_tests_cant": "clamping and halving cases depend on all past steps", "anchors": ["src/lib/FESolver.cpp: TimeControl::nextStep"]}
{"id": "C29", "title": "The requested number of load steps is performed", "statement": "With equal steps of (end-start)/n the load loop performs exactly n load steps.", "quantifier": "all n >= 1 and time intervals (double arithmetic)", "why_tests_cant": "rounding of repeated additions depends on n", "anchors": ["src/lib/FESolver.cpp: NonlinearFESolver::solve, TimeControl::nextStep"]}
{"id": "C30", "title": "Normalised time runs from 0 to 1", "statement": "In every load step the normalised time lies in (0,1] and it is 1 in the last one, for every start and end time with start < end.", "quantifier": "all start/end times", "why_tests_cant": "tests use start = 0 only", "anchors": ["src/lib/FESolver.cpp: TimeControl::getCurrentNormalizedTime, setStartTime"]}
{"id": "C31", "title": "Step bookkeeping is consistent", "statement": "For any interleaving of nextStep and nextEquilibriumStep calls, the number of converged steps, the current step number and the total number of equilibrium iterations agree with the calls made (each finished step counted once), also when nextStep is called again after the end has been reached.", "quantifier": "all call sequences", "why_tests_cant": "depends on histories", "anchors": ["src/lib/FESolver.cpp: TimeControl"]}
{"id": "C32", "title": "Newton iterations stop at the requested accuracy", "statement": "The load step is accepted in the first iteration in which the mean absolute DoF increment is below the user's convergence criterion.", "quantifier": "all increments and criteria", "why_tests_cant": "default value 1e-3 hides the difference", "anchors": ["src/lib/FESolver.cpp: NonlinearFESolver::solve, calculateCriteria"]}
{"id": "C33", "title": "The nonlinear solution ends with the full boundary conditions", "statement": "When NonlinearFESolver::solve finishes, fixed DoFs hold their full prescribed values, and at every iteration the increments solve the linearised system with the current out-of-balance load.", "quantifier": "all models for which all load steps converge", "why_tests_cant": "incremental bookkeeping of constrained DoFs over many steps", "anchors": ["src/lib/FESolver.cpp: NonlinearFESolver::solve"]}
{"id": "C34", "title": "Linear MPC equations hold after a nonlinear solution", "statement": "After NonlinearFESolver::solve each user-defined linear MPC equation sum(coef*u)=b holds for the final DoF values.", "quantifier": "all MPC equations", "why_tests_cant": "needs an inhomogeneous MPC and more than one iteration", "anchors": ["src/lib/FESolver.cpp: NonlinearFESolver::solve", "src/lib/FEStorage.cpp: assembleGlobalEqMatrices"]}
{"id": "C35", "title": "Each transient step satisfies the equation of motion", "statement": "With an exact equation solver, after every time step of LinearTransientFESolver the new U, dU/dt, d2U/dt2 satisfy M*U'' + C*U' + K*U = F + R in all unknown rows.", "quantifier": "all matrices, time steps, initial values and Newmark parameters", "why_tests_cant": "tests use parabolic problems with delta = 0.5 and zero prescribed values", "anchors": ["src/lib/FESolver.cpp: LinearTransientFESolver::solve"]}
{"id": "C36", "title": "The requested number of time steps is performed", "statement": "LinearTransientFESolver performs exactly numberOfTimesteps steps and ends at time1.", "quantifier": "all step counts and time intervals (double arithmetic)", "why_tests_cant": "floating point accumulation", "anchors": ["src/lib/FESolver.cpp: LinearTransientFESolver::solve"]}
{"id": "C37", "title": "Vector views alias, copies do not", "statement": "For every history of dVec operations (view bounds within 32 bits): every array has exactly one owner and is deleted once; a view created on a part of a vector reads and writes exactly that part as long as neither is re-pointed; results of copy, assignment, +, -, *, /, +=, -=, fill and element access are the elementwise results, also when operands alias the target (for += and -=: equal or disjoint arrays); a copy is independent; two non-overlapping views never influence each other; calls within their preconditions are defined.", "quantifier": "all histories of vector operations", "why_tests_cant": "aliasing bugs depend on operation order", "anchors": ["src/lib/math/Vec.h, src/lib/math/Vec.cpp: dVec"]}
{"id": "C38", "title": "A view stays a view", "statement": "Assigning to a view changes the memory it was created on.", "quantifier": "all assignments", "why_tests_cant": "silent detach happens only for different sizes", "anchors": ["src/lib/math/Vec.cpp: dVec::operator=, reinit"]}
{"id": "C39", "title": "Dump and compare agree", "statement": "Immediately after dumpMatricesAndVectors(file), compareMatricesAndVectors(file) succeeds.", "quantifier": "all system states", "why_tests_cant": "depends on the number of significant digits of the values", "anchors": ["src/lib/FESolver.cpp: dumpMatricesAndVectors, compareMatricesAndVectors", "src/lib/math/Vec.cpp: dVec::writeTextFormat"]}
{"id": "C40", "title": "Small dense matrices: determinant and inverse", "statement": "For every square size n and every matrix A with nonzero determinant, A*A.inv(A.det()) is the identity; det agrees between the hand-written 1x1..3x3 versions and the general expansion.", "quantifier": "all sizes and all matrices (exact arithmetic)", "why_tests_cant": "cofactor signs and minors for every n", "anchors": ["src/lib/math/Mat.h: det, inv, cross_cut", "src/lib/math/Mat.cpp"]}
{"id": "C41", "title": "Packed symmetric storage is consistent", "statement": "For every dimension whose packed length fits 16 bits (at most 361 rows), MatSym::comp(i,j) and comp(j,i) denote the same stored cell, different unordered pairs denote different cells, all cells are used, and the cell order is the row-wise upper triangle used by the assembly loops.", "quantifier": "all dimensions and index pairs", "why_tests_cant": "closed-form index arithmetic", "anchors": ["src/lib/math/Mat.h: MatSym::comp, toMat", "src/lib/elements/element.h: assembleK"]}
{"id": "C42", "title": "B^T*D*B products", "statement": "matBTDBprod adds coef*B^T*D*B (upper triangle) to the result for all dimensions and values; matABprod, matATBprod, matBVprod, matBTVprod add the corresponding products.", "quantifier": "all dimensions and values", "why_tests_cant": "packed traversal must be right for every size", "anchors": ["src/lib/math/Mat.h: matBTDBprod, matABprod, matATBprod, matBVprod, matBTVprod"]}
{"id": "C43", "title": "BLAS and non-BLAS builds compute the same", "statement": "matBTVprod gives the same result whether or not the library is built with BLAS.", "quantifier": "all inputs", "why_tests_cant": "each build is tested only against itself", "anchors": ["src/lib/math/Mat.h: matBTVprod"]}
{"id": "C44", "title": "Lines are read independent of the line-ending convention", "statement": "Reading a file line by line gives the same lines whether they end with LF, CR LF or CR in any mixture (a CR directly followed by LF being one terminator), with or without a final terminator; every byte string is such a file.", "quantifier": "all files", "why_tests_cant": "mixtures at every position", "anchors": ["src/lib/FEReaders.cpp: getLine"]}
{"id": "C45", "title": "Tokenizer splits at delimiters and loses nothing", "statement": "Tokenizing a line at the delimiters gives one token more than delimiters; joining untrimmed tokens with the delimiters gives the line back; trimming removes only blanks at the ends.", "quantifier": "all lines and delimiter sets", "why_tests_cant": "all positions of delimiters and blanks", "anchors": ["src/lib/FEReaders.cpp: Tokenizer::tokenize, strim"]}
{"id": "C46", "title": "Fixed-width fields", "statement": "Splitting a line by a list of widths returns consecutive fields of these widths, and in strict mode aborts exactly when the line is too short; otherwise the line may end only at the boundary of a field.", "quantifier": "all lines and width lists", "why_tests_cant": "boundary cases at the line end", "anchors": ["src/lib/FEReaders.cpp: ssplit"]}
{"id": "C47", "title": "Component ranges are expanded completely", "statement": "The CMBLOCK number list, in which a negative number -b after a denotes the range a..b, is expanded to exactly the denoted numbers in order.", "quantifier": "all number lists", "why_tests_cant": "ranges at line ends, long lists", "anchors": ["src/lib/FEReaders.cpp: readCdbFile (CMBLOCK)"]}
{"id": "C48", "title": "Constraint equations are read with all their terms", "statement": "A CE record with n terms, written two terms per line, is read as exactly n terms with their node, DoF and coefficient, for every n.", "quantifier": "all n", "why_tests_cant": "tests contain only small even n", "anchors": ["src/lib/FEReaders.cpp: readCdbFile (CE)"]}
{"id": "C49", "title": "Renumbering keeps the model", "statement": "compressNumbers renumbers nodes to 1..n such that afterwards every cell, boundary condition, MPC term and node component refers to the same physical node (the i-th stored position belongs to node number i).", "quantifier": "all numberings of nodes without duplicates", "why_tests_cant": "permuted numberings", "anchors": ["src/lib/FEReaders.cpp: MeshData::compressNumbers", "src/main.cpp"]}
{"id": "C50", "title": "Names and codes correspond", "statement": "Converting a DoF type, element type, material id, or query code to its label and back gives the same code, and unknown names are rejected as undefined.", "quantifier": "all codes, all strings", "why_tests_cant": "all strings", "anchors": ["src/lib/Dof.cpp: label2dofType, dofType2label", "src/lib/elements/ElementFactory.cpp", "src/lib/materials/MaterialFactory.cpp", "src/lib/FEComponent.cpp"]}
{"id": "C51", "title": "Shape functions interpolate", "statement": "For the LINE, QUAD and HEXAHEDRON elements the shape functions sum to 1, are 1 at their own node and 0 at the others, and formFuncDeriv is their derivative, at every local point.", "quantifier": "all local coordinates", "why_tests_cant": "identities over the reals", "anchors": ["src/lib/elements/isoparametric.cpp: formFunc, formFuncDeriv"]}
{"id": "C52", "title": "Gauss tables integrate polynomials", "statement": "The quadrature tables of order k integrate all polynomials up to degree 2k-1 in each variable with an error bounded by the table's printed precision, and the weights sum to the length/area/volume of the reference element.", "quantifier": "all polynomials of bounded degree with coefficients bounded by 1", "why_tests_cant": "all polynomials", "anchors": ["src/lib/elements/isoparametric.h"]}
{"id": "C53", "title": "Isoparametric gradients are exact for linear fields", "statement": "For any QUAD or HEXAHEDRON with nonzero Jacobian at an integration point, the global shape function derivatives computed there reproduce the gradient of every linear field exactly (so rigid translations give zero strain).", "quantifier": "all node positions, all linear fields", "why_tests_cant": "identities over the reals", "anchors": ["src/lib/elements/isoparametric.cpp: makeJacob"]}
{"id": "C54", "title": "Element volumes", "statement": "volume() equals the length of a LINE; the exact area of any QUAD; and the exact volume of any parallelepiped HEXAHEDRON (up to the precision of the weights); from the second integration order on, it is the integral of the Jacobian for any HEXAHEDRON up to rounding of the table.", "quantifier": "all node positions", "why_tests_cant": "identities over the reals", "anchors": ["src/lib/elements/isoparametric.cpp: volume, makeJacob"]}
{"id": "C55", "title": "TRUSS3 is a correct bar element", "statement": "For every bar of nonzero length the element force vector Ke*U is the axial force E*A/L*elongation along the bar with opposite signs at the ends; translations and infinitesimal rotations produce no force; the reported stress is E times axial strain.", "quantifier": "all node positions, displacements and parameters", "why_tests_cant": "identities over the reals", "anchors": ["src/lib/elements/TRUSS3.cpp"]}
{"id": "C56", "title": "TETRA0 strains are exact for linear displacement fields", "statement": "For every non-degenerate tetrahedron, the strains and stresses computed by update() for a linear displacement field are the symmetric gradient and Hooke's stress; rigid body motions produce no nodal forces.", "quantifier": "all tetrahedra, all linear fields", "why_tests_cant": "identities over the reals", "anchors": ["src/lib/elements/TETRA0.cpp: makeB, makeC, update, buildK"]}
{"id": "C57", "title": "Free thermal expansion solves the element equations", "statement": "For a TETRA0 element without initial strains and stresses, the nodal displacements of a free expansion by alpha*T (with any rigid motion added) satisfy the element equations Ke*U = Fe built by buildK exactly.", "quantifier": "all elements and temperatures", "why_tests_cant": "needs comparing states over repeated calls", "anchors": ["src/lib/elements/TETRA0.cpp: buildK, update"]}
{"id": "C58", "title": "TETRA1 conduction obeys Fourier's law", "statement": "For every tetrahedron and linear temperature field the FLUX query returns -k*gradT, and the element matrix is, up to sign, the conduction matrix: its bilinear form on two temperature fields is -V*k*grad.grad.", "quantifier": "all tetrahedra, all linear fields", "why_tests_cant": "identities over the reals", "anchors": ["src/lib/elements/TETRA1.cpp"]}
{"id": "C59", "title": "TRIANGLE4 is a correct constant strain triangle", "statement": "In plane strain, the first update() gives the exact strains and Hooke's stresses for every linear displacement field, buildK gives the matrix of virtual work area*stress:strain, and rigid motions give no nodal forces (in plane stress too).", "quantifier": "all triangles, all fields, all material constants", "why_tests_cant": "identities over the reals; call histories", "anchors": ["src/lib/elements/TRIANGLE4.cpp"]}
{"id": "C60", "title": "INTER0 interface stiffness", "statement": "For every nonzero normal n not along (0,1,1) the interface element matrix is [K,-K;-K,K] with K = ks*(I-nn^T)+kn*nn^T, n normalised.", "quantifier": "all normals and stiffness values", "why_tests_cant": "depends on the direction of n", "anchors": ["src/lib/elements/INTER0.cpp: buildK"]}
{"id": "C61", "title": "Hyperelastic stresses are the derivative of the energy", "statement": "For each material model and every deformation with positive volume, the second Piola-Kirchhoff stress getS_UP is twice the derivative of the isochoric energy W with respect to C plus p*J*C^-1, and it vanishes in the undeformed state at zero pressure.", "quantifier": "all deformation tensors and material constants", "why_tests_cant": "identity over the reals, derivatives", "anchors": ["src/lib/materials/materials_hyperelastic.cpp: getS_UP, W_first_derivatives, W"]}
{"id": "C62", "title": "Material tangent is consistent", "statement": "getDdDp_UP returns the derivative of getS_UP with respect to the deformation and the pressure.", "quantifier": "all deformation tensors, directions and material constants", "why_tests_cant": "identity over the reals, derivatives", "anchors": ["src/lib/materials/materials_hyperelastic.cpp: getDdDp_UP, W_second_derivatives"]}
{"id": "C63", "title": "Deformation measures", "statement": "For every deformation gradient F: the tensor C stored by SOLID81/PLANE41::update is F^T*F, J_C is |det F|, invC_C is the inverse of C, IC_C are its invariants.", "quantifier": "all deformation gradients", "why_tests_cant": "identity over the reals", "anchors": ["src/lib/solidmech.cpp", "src/lib/elements/SOLID81.cpp: update", "src/lib/elements/PLANE41.cpp: update"]}
{"id": "C64", "title": "Cauchy stress results are correct", "statement": "The COUCHY query of SOLID81 and PLANE41 returns (1/J)*F*S*F^T at a Gauss point and its weighted mean over the element; PK2 returns S.", "quantifier": "all deformation states", "why_tests_cant": "needs pressure and shear at once", "anchors": ["src/lib/elements/SOLID81.cpp: getTensor", "src/lib/elements/PLANE41.cpp: getTensor"]}
{"id": "C65", "title": "Rigid body MPC", "statement": "The equations generated by RigidBodyMpc are the linearisation, at the current state, of 'slave displacement = master displacement + rotation of the arm' (the Newton equation for that constraint), with the current residual as right-hand side, whenever the master rotation is zero or its angle is at least the 0.001 threshold used by the code, and an explicitly bounded approximation of it between; from the threshold on the rotation matrix is a proper orthogonal matrix that fixes its axis. A DoF other than UX, UY, UZ stops the program.", "quantifier": "all master/slave positions and rotations", "why_tests_cant": "identities over the reals, small-angle branch", "anchors": ["src/lib/Mpc.cpp: RigidBodyMpc::update"]}
{"id": "C66", "title": "Reaction curves", "statement": "For every node set and DoF choice ReactionProcessor yields, for each chosen DoF, a curve with a zero point followed by one point per recorded step: the sum over the nodes of the reaction of that DoF (zero for nodes without it), and the result file has the same rows; without a choice by the user the DoFs are exactly the fixed DoFs of the first node. After a linear solution the recorded value is the sum of (K u - F) over the node set.", "quantifier": "all node sets and DoF choices", "why_tests_cant": "depends on which DoFs are used at which node", "anchors": ["src/lib/ReactionProcessor.cpp"]}
{"id": "C67", "title": "Ownership of model objects", "statement": "Every sequence of creation, numbering, initialisation, assembly, lookup and deletion calls (one plain material class, no MPC collections, equations deleted only by the destructor) runs without use of a released object: the tables contain exactly the objects created since the last deletion, element i has the number i, createNodes and createElements return the consecutive numbers of the new objects, and destroying the storage releases every object it refers to exactly once.", "quantifier": "all call sequences", "why_tests_cant": "use after free and double deletion show only for particular call orders and need a sanitizer to be seen", "anchors": ["src/lib/FEStorage.cpp: addNode, createNodes, addElement, createElements, addMpc, addFEComponent, initDofs, initSolutionData, deleteMesh, ~FEStorage", "src/lib/FEStorage.h: getNode, getElement", "src/lib/elements/ElementFactory.cpp"]}
{"id": "C68", "title": "VTK files hold the mesh and the solution", "statement": "After the calls pre() and process(k) of a solution with step numbers 1..65535 and library element shapes (points, lines, triangles, quadrangles, tetrahedra, hexahedra, wedges), a strict reader of legacy VTK accepts every written file (all counts, the size of the cell list, point indices and cell types agree, nothing is left over) and finds in the file named after the step: the node positions, the connectivity counted from zero, the cell types, the displacement and reaction vectors, every further nodal and element DoF (zero where an entity does not have it), and the results asked for or, with writeAllResults, answered by some element; array names are unique and other files stay as they are.", "quantifier": "all meshes with mixed element types, all sets of DoFs, all choices of results, all sequences of steps", "why_tests_cant": "combinations of element types, partial DoF sets and query choices; a viewer accepts many slightly wrong files", "anchors": ["src/lib/VtkProcessor.cpp: pre, process, registerResults, write_geometry, write_point_data, write_cell_data, revealAllResults", "src/lib/FEStorage.h: getNodeDofSolution, getElementDofSolution", "src/lib/elements/query.h", "src/lib/elements/element.h: ElementShape"]}
{"id": "C69", "title": "compare() rejects undefined numbers", "statement": "If compare(A,B,th) returns true then no element of A or B is NaN where the other one is a number: every pair of doubles satisfies |a-b| <= th.", "quantifier": "all matrices of IEEE doubles", "why_tests_cant": "NaN makes every ordered comparison false, so a check written as |a-b| > th passes silently", "anchors": ["src/lib/math/SparseMatrix.cpp: BaseSparseMatrix::compare"]}
{"id": "C70", "title": "Time stepping in double arithmetic reaches the end time exactly", "statement": "With IEEE doubles, for positive end time and positive step requests every accepted nextStep strictly increases the time and the last accepted time is exactly the end time.", "quantifier": "all end times and step requests that are doubles", "why_tests_cant": "t + (end - t) differs from end only for some doubles", "anchors": ["src/lib/FESolver.cpp: TimeControl::nextStep"]}
{"id": "C71", "title": "A view never reaches outside its vector", "statement": "dVec::reinit(ref, start, size) returns normally only if start+size does not exceed the size of ref.", "quantifier": "all uint32 start and size values", "why_tests_cant": "start+size wraps only near 2^32", "anchors": ["src/lib/math/Vec.cpp: dVec::reinit(const dVec&, uint32, uint32)"]}
{"id": "C72", "title": "A vector can be assigned a part of itself", "statement": "v = w, where w is a view on a part of v, is defined and gives v the numbers of that part.", "quantifier": "all vectors and views", "why_tests_cant": "use after delete is often invisible", "anchors": ["src/lib/math/Vec.cpp: dVec::operator="]}
{"id": "C73", "title": "A mesh file is read as it was written", "statement": "For every mesh written in the cdb format (node table, element tables in the SOLID and in the short format, constraint equations of 0, 2 or 4 terms, D and F records, components, of which the first of each name counts) with any line endings, readCdbFile returns exactly this mesh: all node numbers, positions, cells with their attributes, boundary conditions, equations and expanded components, in order.", "quantifier": "all meshes within the column widths of the format", "why_tests_cant": "needs a writer and arbitrary meshes", "anchors": ["src/lib/FEReaders.cpp: readCdbFile"]}
{"id": "C74", "title": "The reader is safe for every file", "statement": "For every byte string as file, readCdbFile ends, either with a mesh or with a reported error, and uses only characters and tokens that exist.", "quantifier": "all byte strings", "why_tests_cant": "arbitrary broken files", "anchors": ["src/lib/FEReaders.cpp: readCdbFile"]}
{"id": "C75", "title": "Reported time increments add up", "statement": "If every load step has at least one equilibrium iteration, the increments returned by getCurrentTimeDelta (getCurrentNormalizedTimeDelta) after each iteration sum to the time reached (divided by the length of the time interval); after the first iteration of a step they are zero.", "quantifier": "all sequences of load steps and iteration counts", "why_tests_cant": "depends on histories", "anchors": ["src/lib/FESolver.cpp: TimeControl::getCurrentTimeDelta, getCurrentNormalizedTimeDelta"]}
{"id": "C76", "title": "TETRA0 results and loads are consistent with thermal strain", "statement": "A TETRA0 element that expands freely by alpha*T reports zero stress, and assembling a second time gives the same load vector as assembling once.", "quantifier": "all elements, temperatures and call sequences", "why_tests_cant": "needs comparing states over repeated calls", "anchors": ["src/lib/elements/TETRA0.cpp: buildK, update"]}
{"id": "C77", "title": "TETRA1 conduction matrix is positive semidefinite and GRADT is the gradient", "statement": "For positive volume and conductivity the matrix of TETRA1 is positive semidefinite, and the GRADT query returns the temperature gradient.", "quantifier": "all tetrahedra, all temperature fields", "why_tests_cant": "identities over the reals", "anchors": ["src/lib/elements/TETRA1.cpp: buildK, makeC, getVector"]}
{"id": "C78", "title": "TRIANGLE4 plane stress and repeated updates", "statement": "In plane stress, TRIANGLE4 reports the stresses of linear isotropic elasticity with zero out-of-plane stress, and calling update() again with the same displacements leaves strains and stresses unchanged.", "quantifier": "all triangles, fields, material constants and call histories", "why_tests_cant": "identities over the reals; call histories", "anchors": ["src/lib/elements/TRIANGLE4.cpp: makeC, update"]}
{"id": "C79", "title": "INTER0 accepts every nonzero normal", "statement": "For every nonzero normal vector buildK of INTER0 yields a finite matrix (no division by zero).", "quantifier": "all normals", "why_tests_cant": "depends on the direction of n", "anchors": ["src/lib/elements/INTER0.cpp: buildK"]}
{"id": "C80", "title": "SOLID81: nodal forces and consistent tangent", "statement": "After update() and buildK() at any displacements and pressure, the residual of SOLID81 is minus the integral (sum over Gauss points) of first Piola-Kirchhoff stress times shape function gradient and minus the volume equation, and the assembled stiffness matrix is exactly the negative derivative of this residual with respect to displacements and pressure.", "quantifier": "all displacement and pressure histories, all geometries with regular deformation gradient, all three materials", "why_tests_cant": "a derivative in 25 unknowns; a wrong tangent only slows convergence down", "anchors": ["src/lib/elements/SOLID81.cpp: buildK, update, make_B_L, make_B_NL, make_Omega, make_S"]}
{"id": "C81", "title": "PLANE41: nodal forces and consistent tangent", "statement": "The same for PLANE41 (plane strain): residual equals the integral of the first Piola-Kirchhoff stress and the volume equation, and the 9x9 matrix passed to assembleK is the negative derivative of the residual.", "quantifier": "all displacement and pressure histories, all geometries with regular deformation gradient, all three materials", "why_tests_cant": "a derivative in 9 unknowns; a wrong tangent only slows convergence down", "anchors": ["src/lib/elements/PLANE41.cpp: buildK, update, make_B, make_Bomega"]}
{"id": "C82", "title": "Finite strain elements: balance and objectivity", "statement": "The nodal forces of SOLID81 and PLANE41 have zero resultant and zero moment about any point in the deformed position; superposing a rigid motion rotates the nodal forces and leaves the volume residual unchanged; a rigid motion of the undeformed element at zero pressure causes no residual.", "quantifier": "all displacements, rotations, translations, materials", "why_tests_cant": "needs finite rotations", "anchors": ["src/lib/elements/SOLID81.cpp: buildK, update", "src/lib/elements/PLANE41.cpp: buildK, update"]}
{"id": "C83", "title": "Scalar and vector results of the finite strain elements", "statement": "The queries SP, WP, WU and IC return the pressure, the volumetric energy, the isochoric strain energy W of the material law and the invariants I1, I2, J of the deformation, times the scale.", "quantifier": "all deformations and materials", "why_tests_cant": "needs volume changes; undefined behaviour may look right", "anchors": ["src/lib/elements/SOLID81.cpp: getScalar, getVector", "src/lib/elements/PLANE41.cpp: getVector"]}
{"id": "C84", "title": "Rigid body MPC: small rotations", "statement": "For master rotations below the small-angle threshold the rotation matrix used by RigidBodyMpc is still orthogonal and its equations are still the exact linearisation of the rigid body constraint.", "quantifier": "all master rotations with angle between 0 and the threshold", "why_tests_cant": "the deviation is of the order of the cube of a tiny angle, below any test tolerance", "anchors": ["src/lib/Mpc.cpp: RigidBodyMpc::update"]}
{"id": "C85", "title": "Reaction curves: inconsistent node sets are refused", "statement": "If the DoFs are chosen automatically and the nodes of the set do not have the same fixed DoFs, ReactionProcessor stops with an error message.", "quantifier": "all meshes, fixed DoFs and node sets", "why_tests_cant": "depends on which DoFs are used and fixed at which node; tests use homogeneous node sets", "anchors": ["src/lib/ReactionProcessor.cpp: ReactionProcessor::pre"]}
{"id": "C86", "title": "Reaction curves do not depend on the result file", "statement": "The curves returned by getReactions have one point per step whether or not the result file can be created or opened, and an empty node set is harmless.", "quantifier": "all histories of file availability, all node sets and DoF choices", "why_tests_cant": "file system failures at any step", "anchors": ["src/lib/ReactionProcessor.cpp: ReactionProcessor::pre, ReactionProcessor::process"]}
{"id": "C87", "title": "Deleting equations and the mesh leaves a usable storage", "statement": "deleteMpcs releases the equations and empties the list (as its comment in FEStorage.h says); deleteMesh may be called any number of times, before destruction, and a new model may be built afterwards.", "quantifier": "all storages and call histories", "why_tests_cant": "double deletion shows only with MPCs and repeated calls", "anchors": ["src/lib/FEStorage.cpp: deleteMesh, deleteMpcs", "src/lib/FEStorage.h: 240-242"]}
{"id": "C88", "title": "Destruction of materials and MPC collections", "statement": "A storage that owns a material created by MaterialFactory or an MPC collection (RigidBodyMpc) can be destroyed with defined behaviour: objects are deleted through base class pointers with virtual destructors.", "quantifier": "all storages", "why_tests_cant": "undefined behaviour without visible symptom on common platforms", "anchors": ["src/lib/Mpc.h: class MpcCollection", "src/lib/materials/material.h: class Material", "src/lib/FEStorage.cpp: ~FEStorage, deleteMpcCollections"]}
{"id": "C89", "title": "No objects are lost", "statement": "After the destruction of the storage none of the objects it was given or created is alive.", "quantifier": "all call sequences", "why_tests_cant": "leaks are invisible to result checks; they need repeated solutions on one storage", "anchors": ["src/lib/FEStorage.cpp: initSolutionData, deleteSolutionData, ~FEStorage"]}
{"id": "C90", "title": "Every shape of ElementShape can be written", "statement": "A mesh with elements of any shape that ElementShape and the table of node counts list is written to a VTK file that a reader accepts.", "quantifier": "all meshes", "why_tests_cant": "no element class of the library has the missing shapes today; the writer only logs a message", "anchors": ["src/lib/VtkProcessor.cpp: write_geometry", "src/lib/elements/element.h: ElementShape, _nodes_in_shape"]}
{"id": "C91", "title": "Every step has its own VTK file", "statement": "The results of different steps of one solution are written to different files, named after the number of the step.", "quantifier": "all numbers of steps", "why_tests_cant": "needs more than 65535 steps", "anchors": ["src/lib/VtkProcessor.cpp: process", "src/lib/PostProcessor.h", "src/lib/FESolver.cpp: TimeControl::getCurrentStep"]}
{"id": "C92", "title": "QUADTH: heat conduction and capacity", "statement": "For every quadrangle with positive Jacobians at its integration points ElementQUADTH assembles a conductivity matrix that gives for every linear temperature field in each corner the flow through its part of the boundary, is semidefinite, and (order 2 and 3) vanishes exactly on constant fields; the load is the volume flux times the area; the capacity matrix stores rho*c*area per degree and is semidefinite.", "quantifier": "all node positions, materials, temperatures, integration orders", "why_tests_cant": "tests compare a few meshes with one temperature distribution", "anchors": ["src/lib/elements/QUADTH.cpp: ElementQUADTH::buildK, buildC, make_B", "src/lib/elements/isoparametric.cpp"]}
{"id": "C93", "title": "SurfaceLINETH: flux and convection", "statement": "SurfaceLINETH takes in, summed over its nodes, length * (flux + htc * (mean environment temperature - mean surface temperature)); its matrix and load are the integrals of htc N_i N_j and N_i (flux + htc T_env); at environment temperature nothing flows; coincident nodes with a load stop at an assertion.", "quantifier": "all positions, loads, temperatures, integration orders", "why_tests_cant": "tests use one flux and one convection case", "anchors": ["src/lib/elements/QUADTH.cpp: SurfaceLINETH::buildK", "src/lib/elements/isoparametric.h: ElementIsoParamLINE"]}
{"id": "C94", "title": "The environment temperatures given are those used", "statement": "SurfaceLINETH computes convection with the environment temperatures etemp[0], etemp[1] that were set.", "quantifier": "all pairs of temperatures", "why_tests_cant": "needs a surface whose second environment temperature is exactly 0", "anchors": ["src/lib/elements/QUADTH.cpp: SurfaceLINETH::pre"]}
{"id": "C95", "title": "QUADTH: only constant fields conduct nothing, for every integration order", "statement": "For every integration order that setIntegrationOrder accepts the conductivity matrix of ElementQUADTH vanishes only on constant temperature fields.", "quantifier": "all integration orders 1 to 3", "why_tests_cant": "tests use the default order", "anchors": ["src/lib/elements/QUADTH.cpp: ElementQUADTH::buildK", "src/lib/elements/element.h: setIntegrationOrder"]}
{"id": "C96", "title": "INTER3: stiffness of an interface between two triangles", "statement": "For every proper first triangle ElementINTER3::buildK computes det = twice the area and the unit normal, and assembles the blocks +-area-weighted (ks (I - n n^T) + kn n n^T): no forces when both faces move together, traction times area for a uniform opening (equal and opposite on the faces), energy zero exactly when the faces move together.", "quantifier": "all node positions, stiffnesses, displacements", "why_tests_cant": "tests use axis-parallel interfaces; only the upper triangle of the local matrix is built, which is right for this law only", "anchors": ["src/lib/elements/INTER3.cpp: buildK, makeJacob, make_T, make_B, make_D", "src/lib/elements/INTER3.h: _rado_o3, radoIntWeight, radoIntL1..3"]}
{"id": "C97", "title": "INTER3: strains and stress are averages over the surface", "statement": "After buildK and update the members strains and stress hold the opening and the traction averaged over the surface (INTER3.h: surface averaged strains, surface averaged stress).", "quantifier": "all positions, stiffnesses, displacements", "why_tests_cant": "right for triangles of unit area only", "anchors": ["src/lib/elements/INTER3.cpp: update", "src/lib/elements/INTER3.h: strains, stress"]}
{"id": "C98", "title": "INTER3: answers to tensor queries", "statement": "getTensor either returns false or adds the result named by the query times scale and returns true (element.h), for every query.", "quantifier": "all queries, scales", "why_tests_cant": "the missing return statement shows only for the queries that are not answered; scale is 1 in the VTK writer", "anchors": ["src/lib/elements/INTER3.cpp: getTensor", "src/lib/elements/element.h: getTensor", "src/lib/elements/query.h: tensorQuery"]}
{"id": "C99", "title": "Eigenvalues of a symmetric 3x3 matrix", "statement": "For a symmetric real 3x3 matrix that is not a multiple of the unit matrix, eigenvalues() returns the three roots of the characteristic polynomial, with multiplicity, in the documented order, and each of them has an eigenvector.", "quantifier": "all symmetric matrices that are not c*I (exact reals)", "why_tests_cant": "the trigonometric solution has branches (sign of the third invariant, equal roots) that finitely many matrices do not cover", "anchors": ["src/lib/math/Mat.h: eigenvalues (301-374)"]}
{"id": "C100", "title": "Eigenvalues: the remaining matrices", "statement": "eigenvalues() returns the roots of the characteristic polynomial for every 3x3 matrix that has three real roots.", "quantifier": "all 3x3 matrices with real roots", "why_tests_cant": "spherical states (hydrostatic stress) divide 0 by 0; the lower triangle is never read: both are invisible with generic symmetric input", "anchors": ["src/lib/math/Mat.h: eigenvalues (301-374)"]}
{"id": "C101", "title": "Command line: order of the options", "statement": "For every choice of settings, the program nla3d reads the same settings from the command line whatever the order of the option groups; options that are not given keep their defaults. A lookup of an option returns exactly the values between its name and the next option name.", "quantifier": "all settings within the documented domain, all permutations of the groups", "why_tests_cant": "13 options in any order and number", "anchors": ["src/main.cpp: parse_args", "src/lib/sys.cpp: getCmdOption, getCmdManyOptions, cmdOptionExists"]}
{"id": "C102", "title": "Command line: every value is read as given", "statement": "Numbers on the command line are read as the number given; values of an option are never taken for option names nor option names for values.", "quantifier": "all command lines", "why_tests_cant": "16-bit truncation and '-.5' appear only for particular values", "anchors": ["src/main.cpp: parse_args", "src/lib/sys.cpp: getCmdManyOptions"]}
{"id": "C103", "title": "Command line: wrong material input is refused", "statement": "An unknown material name, or fewer constants than the material needs, ends the run with a message and a status; with enough constants the first getNumC() are used.", "quantifier": "all material names and lists of constants", "why_tests_cant": "reading beyond the constants rarely crashes", "anchors": ["src/main.cpp: main (material)", "src/lib/materials/MaterialFactory.cpp: createMaterial"]}
{"id": "C104", "title": "Reference curve file: one value per row", "statement": "A reference file with three header words and rows of two words and a number gives the list of the numbers of the rows, for every layout of white space; a file that is not of this form is refused.", "quantifier": "all rows, layouts, numbers", "why_tests_cant": "repeated values, a first value -1, an empty table and a malformed number are rare in reference files", "anchors": ["src/main.cpp: readRefCurveData"]}
{"id": "C105", "title": "Comparison with the reference curve and status of the process", "statement": "For finite curves of the same length compareCurves is the mean absolute difference, zero exactly for equal curves; the process ends with status 1 exactly if the lengths differ or the threshold is positive and smaller than the difference; a missing reference file gives status 1.", "quantifier": "all finite curves, thresholds, command lines, models (exact reals)", "why_tests_cant": "the status depends on all loadsteps and on the threshold", "anchors": ["src/main.cpp: compareCurves, main (reactions, reference curve)"]}
{"id": "C106", "title": "A run passes only if the curves agree", "statement": "With a reference curve and a positive threshold the status 0 means that the reactions agree with the reference within the threshold.", "quantifier": "all computed curves including infinities and NaN", "why_tests_cant": "a diverged solution gives NaN; NaN > threshold is false", "anchors": ["src/main.cpp: compareCurves, main"]}
{"id": "C107", "title": "The problem given to the solver is the one of the files", "statement": "Cells, loads, fixed DoFs, the components of -reaction and the slaves of -rigidbody refer, after renumbering, to the nodes (positions) they have in the file; element type, material, numbers of loadsteps and iterations are those of the command line.", "quantifier": "all meshes with distinct node numbers, all options", "why_tests_cant": "needs meshes with gaps in all combinations with options", "anchors": ["src/main.cpp: main", "src/lib/FEReaders.cpp: MeshData::compressNumbers, readCdbFile"]}
{"id": "C108", "title": "Master node of -rigidbody", "statement": "The master node given with -rigidbody is the node with that number in the model file, and any list of DoFs is accepted.", "quantifier": "all meshes, master nodes, lists of DoFs", "why_tests_cant": "only meshes with gaps in the node numbers show the difference", "anchors": ["src/main.cpp: main (rigid body)", "src/lib/FEReaders.cpp: MeshData::compressNumbers"]}
{"id": "C109", "title": "Job name from the model path", "statement": "getFileNameFromPath cuts the extension of the file (and nothing else).", "quantifier": "all paths", "why_tests_cant": "directories with a dot in their names", "anchors": ["src/lib/sys.cpp: getFileNameFromPath", "src/main.cpp: main (job name)"]}
{"id": "C110", "title": "Balance of forces at every degree of freedom", "statement": "After LinearFESolver::solve, for every registered DoF the forces of all elements at the computed solution plus the forces of the MPC equations equal the stored external force (vecR); where nothing is prescribed that force is the sum of the loads, elsewhere the displacement is the prescribed one. External forces do no work on displacements that no element and no MPC equation resists.", "quantifier": "all meshes, elements (any matrices), loads, prescribed values, MPC equations; every exact equation solver", "why_tests_cant": "tests compare a few displacements; the balance ties all elements, MPC equations and boundary conditions of an arbitrary mesh together", "anchors": ["src/lib/FESolver.cpp: LinearFESolver::solve", "src/lib/FEStorage.cpp: assembleGlobalEqMatrices"]}
{"id": "C111", "title": "Loads and reactions of a structure are in balance", "statement": "For structures of TRUSS3 bars and TETRA0 tetrahedra (also heated or prestrained) the loads and reactions add up to zero force in every direction and zero moment about every axis.", "quantifier": "all structures with bars of positive length and tetrahedra of nonzero volume, all supports and loads", "why_tests_cant": "needs arbitrary geometry; tests do not sum the reactions", "anchors": ["src/lib/elements/TRUSS3.cpp", "src/lib/elements/TETRA0.cpp", "src/lib/FESolver.cpp: LinearFESolver::solve", "src/lib/FEStorage.h: getReaction"]}
{"id": "C112", "title": "Method of joints", "statement": "In a truss the reported stresses (S, times the area, along the axes of the bars) pull on every node with exactly the external force stored for it; each reported stress is E times the relative change of length.", "quantifier": "all trusses, nodes, directions", "why_tests_cant": "relates the results of all bars of a node with loads and reactions", "anchors": ["src/lib/elements/TRUSS3.cpp: buildK, update", "src/lib/FEStorage.cpp: updateResults"]}
{"id": "C113", "title": "Insufficient supports are refused, sufficient ones are not", "statement": "With the default equation solver a structure that can move rigidly, or a truss with a mechanism, within its supports ends with an error; if the solver gives up, a displacement within the supports exists that needs less than 1e-20 of force at every free DoF; if it succeeds, only the zero displacement needs none.", "quantifier": "all structures, supports, mechanisms", "why_tests_cant": "singular systems are never tested; an error must mean a defect of the model", "anchors": ["src/lib/math/EquationSolver.cpp: GaussDenseEquationSolver", "src/lib/FESolver.cpp: LinearFESolver::solve"]}
{"id": "C114", "title": "Rigid motion and free thermal expansion cause no forces", "statement": "If the supports are displaced by a rigid motion, or by the free expansion of uniformly heated tetrahedra, without loads, then every node follows this motion, all reactions vanish, bars report no stress, tetrahedra report exactly the strains of the motion.", "quantifier": "all structures, rigid motions, expansions, arrangements of the supports", "why_tests_cant": "needs the whole chain of elements, assembly, prescribed values and results for arbitrary meshes (patch test)", "anchors": ["src/lib/elements/TETRA0.cpp: buildK, update", "src/lib/elements/TRUSS3.cpp", "src/lib/FESolver.cpp: LinearFESolver::solve"]}
{"id": "C115", "title": "Reciprocity and work of the external forces", "statement": "For two load cases of the same model the forces of one do the same work on the displacements of the other (including element loads and MPC equations, Betti); in a truss the work of loads and reactions on any displacement is the work of the bars.", "quantifier": "all models, pairs of load cases, supports (which may differ)", "why_tests_cant": "quantifies over pairs of solutions", "anchors": ["src/lib/FESolver.cpp: LinearFESolver::solve", "src/lib/FEStorage.cpp: assembleGlobalEqMatrices"]}
{"id": "C116", "title": "nla3d_truss finds the reference solution", "statement": "With exact arithmetic the program main_truss.cpp with the default equation solver ends without a failed CHECK; all displacements differ from the references by less than 1e-7 in absolute value.", "quantifier": "all initial contents of the solution vector", "why_tests_cant": "a run shows one floating point result; the tolerance of 1e-7 leaves a margin of 1.7e-8 for one of the values", "anchors": ["src/main_truss.cpp: main"]}
{"id": "C117", "title": "nla3d_truss rejects wrong results", "statement": "The CHECKs at the end of main_truss.cpp fail if a displacement differs from its reference by 1e-7 or more.", "quantifier": "all equation solvers", "why_tests_cant": "tests run with a correct solver only", "anchors": ["src/main_truss.cpp: main (CHECKs)"]}
{"id": "C118", "title": "Balance of heat", "statement": "For models of TETRA1, QUADTH and SurfaceLINETH elements the heat supplied at the nodes (loads and what keeps the prescribed temperatures), the heat produced in the quadrangles and the heat entering through the edges (flux and convection at the mean temperature) add up to zero; with the default equation solver every such run ends with a result or a fatal error.", "quantifier": "all heat conduction models with valid elements, loads, prescribed temperatures, exact equation solvers", "why_tests_cant": "needs arbitrary meshes and the reactions of all nodes", "anchors": ["src/lib/elements/TETRA1.cpp: buildK", "src/lib/elements/QUADTH.cpp: buildK", "src/lib/FESolver.cpp: LinearFESolver::solve"]}
{"id": "C119", "title": "Linear temperature fields are reproduced (patch test)", "statement": "If temperatures of a linear field are prescribed at least at all nodes that are not inside of a body of one material, then all temperatures are those of the field, for TETRA1 and for QUADTH with any order of integration and any shape of the elements; every TETRA1 reports the flux -k grad T.", "quantifier": "all meshes, linear fields, sets of prescribed nodes", "why_tests_cant": "the patch test for all meshes at once; inner nodes are characterised by the faces of their elements", "anchors": ["src/lib/elements/TETRA1.cpp: buildK, update", "src/lib/elements/QUADTH.cpp: buildK", "src/lib/FESolver.cpp: LinearFESolver::solve"]}
{"id": "C120", "title": "Linear displacement fields are reproduced (patch test)", "statement": "In a body of TETRA0 elements of one material, evenly heated or not, a displacement that is linear in the coordinates and is prescribed at least at all DoFs of nodes that are not inside is the solution everywhere; every element reports its strains.", "quantifier": "all meshes of tetrahedra, linear displacements, sets of prescribed DoFs", "why_tests_cant": "the patch test for all meshes at once", "anchors": ["src/lib/elements/TETRA0.cpp: buildK, update", "src/lib/FESolver.cpp: LinearFESolver::solve"]}
{"id": "C121", "title": "Insulated bodies are refused, bodies in equilibrium stay at the temperature around", "statement": "With the default equation solver a model without prescribed temperatures and without convection ends with an error, whatever heat is supplied; if everything around has the temperature e and no heat is produced, every node has the temperature e and needs no supply of heat.", "quantifier": "all heat conduction models", "why_tests_cant": "singular systems and equilibria of arbitrary meshes are never tested", "anchors": ["src/lib/elements/QUADTH.cpp: buildK, pre", "src/lib/elements/TETRA1.cpp: buildK", "src/lib/math/EquationSolver.cpp: GaussDenseEquationSolver"]}
{"id": "C122", "title": "Heat supplied at a node does not make it colder", "statement": "With all prescribed temperatures and the surroundings at zero, heat q > 0 supplied at one node (addition of a load to its TEMP DoF) gives a temperature of at least zero there. Holds for QUADTH and SurfaceLINETH. TETRA1 is assembled with the opposite sign: there the temperature is never above zero, four tetrahedra give -q/(4k).", "quantifier": "all meshes, nodes, amounts of heat", "why_tests_cant": "existing tests only prescribe temperatures, where the sign of the matrix cancels", "anchors": ["src/lib/elements/TETRA1.cpp: buildK", "src/lib/elements/QUADTH.cpp: buildK"]}
{"id": "C123", "title": "Balance of heat in time", "statement": "For transient models of QUADTH and SurfaceLINETH elements without prescribed temperatures, the heat stored by the temperature rate that a step works with is the heat that the sources, the edges (flux, convection) and the loads give at the temperatures at the end of the step; if nothing is given and nothing is exchanged the heat stored stays the same over the whole run; with the default equation solver a run ends with a result, a fatal error or goes on for ever.", "quantifier": "all meshes, materials, loads, alpha, delta and steps other than zero, numbers of steps", "why_tests_cant": "a balance over all steps of a transient run of arbitrary meshes; tests compare temperatures at a few nodes", "anchors": ["src/lib/elements/QUADTH.cpp: buildK, buildC", "src/lib/FESolver.cpp: LinearTransientFESolver::solve"]}
{"id": "C124", "title": "Heat given in a time is stored in that time", "statement": "With the default alpha = 0.25 and delta = 0.5, a body that exchanges nothing and receives a constant flow of heat should have stored flow times time at every step. It has stored the heat of half a step less after every step: DU and DDU start at zero whatever the loads are. Exactly this lag is proved for all models, the statement itself is refuted.", "quantifier": "all models without prescribed temperatures and convection, numbers of steps", "why_tests_cant": "the lag is a constant half of a step and vanishes against the tolerance of tests with many steps", "anchors": ["src/lib/FESolver.cpp: LinearTransientFESolver::solve (U, DU, DDU initialisation)"]}
{"id": "C125", "title": "A body at the temperature of its surroundings stays there", "statement": "A transient run with the default equation solver that starts at the temperature e, in surroundings of temperature e, without sources, loads and prescribed temperatures keeps the temperature e at every node in every step.", "quantifier": "all meshes, materials, alpha, step lengths, numbers of steps", "why_tests_cant": "equilibrium of arbitrary meshes over arbitrarily many steps", "anchors": ["src/lib/FESolver.cpp: LinearTransientFESolver::solve", "src/lib/elements/QUADTH.cpp: buildK, buildC"]}
{"id": "C126", "title": "Unconditional stability of heat conduction in time", "statement": "With the default alpha = 0.25 and delta = 0.5 and steps of any length, cooling in surroundings of temperature zero (convection, prescribed temperatures zero, no sources) never increases the temperatures in the measure of the heat capacity, from the first step on, with initial values of any size.", "quantifier": "all meshes, materials, positive steps, numbers of steps, exact equation solvers", "why_tests_cant": "stability for all meshes and steps at once", "anchors": ["src/lib/FESolver.cpp: LinearTransientFESolver::solve", "src/lib/elements/QUADTH.cpp: buildK, buildC"]}
{"id": "C127", "title": "Prescribed temperatures are felt in a transient run", "statement": "A body of conducting quadrangles that starts at e with the temperature e prescribed at some nodes should stay at e. It leaves e whenever e is not zero and an element has both a prescribed and a free node: the transient solver takes prescribed values for zero in the equations of the free DoFs. Proved for all such runs; witness: a square plate with one corner at 20 degrees.", "quantifier": "all meshes of quadrangles, prescribed sets, solver settings", "why_tests_cant": "the existing transient test has no prescribed temperatures", "anchors": ["src/lib/FESolver.cpp: LinearTransientFESolver::solve", "src/lib/elements/QUADTH.cpp: buildK"]}
{"id": "C128", "title": "Gauss solver objects have no memory", "statement": "Whatever a GaussDenseEquationSolver object was used for before, and whatever sizes the systems had, every solveEquations call gives the unknowns that a new object gives. factorizeEquations only keeps the number of equations: substituteEquations takes the numbers of the matrix it is given, so factorising one matrix and substituting with another one of the same size solves the second system.", "quantifier": "all objects, lists of systems, matrices, right-hand sides, contents of the unknowns", "why_tests_cant": "histories of arbitrary length with changing sizes; a stale number of the dense copy would show only for particular sequences", "anchors": ["src/lib/math/EquationSolver.cpp: GaussDenseEquationSolver::solveEquations, factorizeEquations, substituteEquations", "src/lib/math/Mat.h: dMat::resize, zero"]}
{"id": "C129", "title": "A Gauss solver call leaves its input alone and notices wrong use", "statement": "Refuted: the right-hand side is overwritten by the elimination, so the same call with the same vectors gives another answer the second time; substituting with a larger matrix than the one factorised solves only the leading block and reports nothing; with a smaller one the matrix is read outside of its rows; substituting without factorisation reports nothing and leaves the unknowns as they were.", "quantifier": "witnesses over the rationals; the case without factorisation for all matrices", "why_tests_cant": "the solver classes rebuild the right-hand side before every call, so that tests never see it", "anchors": ["src/lib/math/EquationSolver.cpp: GaussDenseEquationSolver::substituteEquations, _solve"]}
{"id": "C130", "title": "Calls of the PARDISO library keep its protocol", "statement": "For any sequence of calls of one PARDISO_equationSolver object in which all matrices have one pattern (stored with the diagonal), symmetry is not given up and substitutions use the matrix factorised last, the library is called in the order analysis, factorisations and substitutions, release, always with one matrix type, which is the setting of setPositive before the first factorisation; nothing undefined happens; every answer solves its system, and right-hand sides are kept - if the library solves what it does not report as an error.", "quantifier": "all sequences of calls, patterns, matrices, libraries", "why_tests_cant": "MKL is not available in tests without a licence; the protocol spans arbitrary sequences of calls", "anchors": ["src/lib/math/EquationSolver.cpp: PARDISO_equationSolver", "src/lib/math/EquationSolver.h: PARDISO_equationSolver"]}
{"id": "C131", "title": "PARDISO objects can be reused and destroyed at any time", "statement": "Refuted: an object made without parentheses and destroyed before its first factorisation hands uninitialised pointers to the library; an object that factorised a matrix refuses matrices of another size, and gives a matrix of the same size with another pattern to the library as if nothing had changed; setPositive and setSymmetric are ignored after the first factorisation; substitution before factorisation is not noticed.", "quantifier": "all matrices, all libraries that report no error", "why_tests_cant": "undefined behaviour of a library that usually survives it", "anchors": ["src/lib/math/EquationSolver.cpp: PARDISO_equationSolver::factorizeEquations, initializePARDISO, releasePARDISO", "src/lib/math/EquationSolver.h: PARDISO_equationSolver"]}
{"id": "C132", "title": "Both equation solvers give the same results", "statement": "When a sequence of calls ends without error with a Gauss object and with a PARDISO object, all unknowns agree; when LinearFESolver::solve ends without error with both, the whole results (matrices, unknowns, reactions) agree. What is proved for exact equation solvers holds with PARDISO.", "quantifier": "all sequences of calls, all linear problems, libraries that solve what they do not report as an error", "why_tests_cant": "needs both solvers and all models", "anchors": ["src/lib/math/EquationSolver.cpp", "src/lib/FESolver.cpp: LinearFESolver::solve"]}
{"id": "C133", "title": "Systems of linear problems have the storage that PARDISO asks for", "statement": "The matrix of unknowns that LinearFESolver::solve hands to PARDISO starts its numbers at 1, has increasing columns in each row and stores the diagonal, for all problems without MPCs in which every free DoF belongs to an element: they end with a result, or with an error of the library. Refuted for problems with at least one MPC and for those with a free DoF in no element: the row of the Lagrange multiplier has no diagonal element, which the library does not allow.", "quantifier": "all meshes, registrations, constraints, loads", "why_tests_cant": "the missing diagonal elements go unnoticed with the Gauss solver and with some versions of the library", "anchors": ["src/lib/FEStorage.cpp: initSolutionData", "src/lib/math/SparseMatrix.cpp: SparsityInfo", "src/lib/math/EquationSolver.cpp: PARDISO_equationSolver::initializePARDISO"]}
{"id": "C134", "title": "npow is the power or undefined", "statement": "npow(d, p) returns d to the power p whenever this fits into 32 bits and is undefined (signed overflow) otherwise; with d = -1, as in the cofactors of Mat::inv, it is the sign of the parity for every exponent.", "quantifier": "all bases, all exponents", "why_tests_cant": "the edge -2^31 and overflow of intermediate products are single points of a large space", "anchors": ["src/lib/sys.cpp: npow", "src/lib/math/Mat.h: Mat::inv"]}
{"id": "C135", "title": "del_spaces removes the blanks at both ends", "statement": "A text of at most 65536 characters with a character that is not a blank is returned without the blanks at its ends, and calling again changes nothing. Refuted otherwise: a text of blanks only becomes one blank, 65536 blanks in front make the call endless, longer texts lose their tail.", "quantifier": "all texts", "why_tests_cant": "texts of more than 65536 characters are not tried; the blank result is indistinguishable from a value in logs", "anchors": ["src/lib/sys.cpp: del_spaces"]}
{"id": "C136", "title": "read_tokens splits a command at delimiters and drops the comment", "statement": "For words shorter than 32768 characters the tokens are the words without outer blanks, each delimiter as its own token, and nothing after the exclamation mark; every input has that shape. Refuted for longer words: 32768 to 65535 characters end the program with an exception, longer ones are silently shortened.", "quantifier": "all inputs", "why_tests_cant": "the 16-bit length only shows with very long words", "anchors": ["src/lib/sys.cpp: read_tokens"]}
{"id": "C137", "title": "Material constants by name and by number", "statement": "After any sequence of assignments through Ci(name) or Ci(number), Ci gives the value assigned last to the constant meant; a constant never assigned, an unknown name and a number out of range are undefined. With distinct names, name and number mean the same constant; of equal names the first is meant. toString lists all names with their values.", "quantifier": "all lists of names, all sequences of assignments", "why_tests_cant": "reading an unassigned constant usually gives a plausible number", "anchors": ["src/lib/materials/material.cpp: Ci, register_mat_const, toString", "src/lib/materials/material.h: Ci"]}
{"id": "C138", "title": "Materials follow the law of their name with the constants of their names", "statement": "An object made by MaterialFactory::createMaterial whose constants were assigned in any way computes energy, derivatives and bulk modulus of the law of its name with the values of the named constants; constants in the order of the command line get the names of the documentation. Computing with unassigned constants is undefined.", "quantifier": "all sequences of assignments, all invariants", "why_tests_cant": "swapped constants give plausible curves", "anchors": ["src/lib/materials/materials_hyperelastic.h", "src/lib/materials/materials_hyperelastic.cpp: W_first_derivatives, W_second_derivatives, W, getK", "src/lib/materials/MaterialFactory.cpp: createMaterial"]}
{"id": "C139", "title": "A material reports the name it was created by", "statement": "Holds for Neo-Hookean and Biderman; refuted for Mooney-Rivlin, which reports Money-Rivlin, a name the factory does not know.", "quantifier": "all names", "why_tests_cant": "only a round trip through the factory shows it", "anchors": ["src/lib/materials/materials_hyperelastic.h: Mat_Comp_MooneyRivlin", "src/lib/materials/MaterialFactory.cpp"]}
{"id": "C140", "title": "The result of the linear solver is the only state of balance", "statement": "After LinearFESolver::solve displacements, multipliers of the MPC equations and external forces are in balance: element forces plus forces of the equations equal the external force of every DoF, the external force is the load wherever nothing is prescribed, prescribed displacements and MPC equations hold. With the default equation solver every other triple that is in balance is equal to it.", "quantifier": "all meshes, element matrices, loads, prescribed values and MPC equations of a solved problem", "why_tests_cant": "uniqueness speaks about all displacement fields at once", "anchors": ["src/lib/FESolver.cpp: LinearFESolver::solve", "src/lib/FEStorage.cpp: assembleGlobalEqMatrices", "src/lib/math/EquationSolver.cpp: GaussDenseEquationSolver"]}
{"id": "C141", "title": "Load cases can be superposed", "statement": "If element loads, loads, prescribed values and right hand sides of MPC equations of a third load case are a times those of the first plus b times those of the second, and the first two are solved, then the third is solved and its displacements and reactions are the same combination. Whether a case is solved does not depend on its right hand sides.", "quantifier": "all structures, all factors, all load cases", "why_tests_cant": "tests compare single cases with stored results", "anchors": ["src/lib/FESolver.cpp: LinearFESolver::solve", "src/lib/FEStorage.cpp: assembleGlobalEqMatrices", "src/lib/math/EquationSolver.cpp: GaussDenseEquationSolver::solve"]}
{"id": "C142", "title": "The result does not depend on numbering and order", "statement": "Renumbering the nodes, and listing elements, MPC equations, their terms and loads in another order, changes neither displacements nor reactions of any node.", "quantifier": "all injective renumberings, all permutations, elements with DoFs of nodes", "why_tests_cant": "tests use one numbering", "anchors": ["src/lib/FESolver.cpp: LinearFESolver::solve", "src/lib/FEStorage.cpp: assembleGlobalEqMatrices", "src/lib/FEStorage.cpp: assignEquationNumbers"]}
{"id": "C143", "title": "The result has the smallest potential energy; stiffer structures yield less", "statement": "If no element gives energy back, the result has the smallest potential energy of all displacements that respect supports and MPC equations, and with the default solver it is the only one. If a structure is made stiffer, is given more supports or more equations, the work of the same loads does not grow; in particular trusses whose bars are replaced by stiffer ones and get additional bars and supports.", "quantifier": "all admissible displacement fields, all pairs of structures", "why_tests_cant": "a statement about all competing displacement fields", "anchors": ["src/lib/FESolver.cpp: LinearFESolver::solve", "src/lib/FEStorage.cpp: assembleGlobalEqMatrices", "src/lib/elements/TRUSS3.cpp: buildK"]}
{"id": "C144", "title": "Supports and loads can be exchanged", "statement": "If supports are replaced by their reactions as loads, or loads by supports at the displacements found, a second run gives the same displacements and external forces.", "quantifier": "all structures and all choices of exchanged DoFs for which the second run is solved", "why_tests_cant": "needs the uniqueness of the state of balance", "anchors": ["src/lib/FESolver.cpp: LinearFESolver::solve", "src/lib/FEStorage.cpp: assembleGlobalEqMatrices"]}
{"id": "C145", "title": "Equilibrium iterations are Newton steps of the equilibrium equations", "statement": "When NonlinearFESolver solves a body of SOLID81 and PLANE41 elements, every iteration solves the linear part of the equations of equilibrium at the current displacements and pressures: internal force plus its derivative along the increments plus forces of the MPC equations equals the load at the current time. Prescribed DoFs get their values for that time, every iteration starts where the one before stopped, and the stored stresses and strains belong to the displacements found.", "quantifier": "all meshes, materials, loads, prescribed values, MPC collections and all iterations", "why_tests_cant": "a wrong tangent still converges in tests, only slower; the derivative is a statement about all directions", "anchors": ["src/lib/FESolver.cpp: NonlinearFESolver::solve", "src/lib/elements/SOLID81.cpp: buildK, update", "src/lib/elements/PLANE41.cpp: buildK, update", "src/lib/FEStorage.cpp: assembleGlobalEqMatrices"]}
{"id": "C146", "title": "An iteration without change has found exact equilibrium", "statement": "If the increments of an iteration are all zero, displacements and pressures after it satisfy the equations of equilibrium exactly, with the loads at that time and the multipliers of the MPC equations found.", "quantifier": "all bodies, loads and iterations", "why_tests_cant": "tests compare with a tolerance and stored results", "anchors": ["src/lib/FESolver.cpp: NonlinearFESolver::solve", "src/lib/elements/SOLID81.cpp: buildK, update", "src/lib/elements/PLANE41.cpp: buildK, update", "src/lib/FEStorage.cpp: assembleGlobalEqMatrices"]}
{"id": "C147", "title": "Loads and reactions of a deformed body have no resultant", "statement": "After every iteration the external forces of a body without MPC equations add up to zero in every direction. Their moment about the node positions before the iteration is minus the moment of the internal forces over the increments, so it vanishes as the iterations converge.", "quantifier": "all bodies, loads, supports and iterations", "why_tests_cant": "holds for every state on the way, not only for converged ones", "anchors": ["src/lib/FESolver.cpp: NonlinearFESolver::solve", "src/lib/elements/SOLID81.cpp: buildK, update", "src/lib/elements/PLANE41.cpp: buildK, update", "src/lib/FEStorage.cpp: assembleGlobalEqMatrices"]}
{"id": "C148", "title": "NonlinearFESolver ends without undefined behaviour on every body", "statement": "For a well-posed body and a time interval that is not empty the solver with the default equation solver comes to an end, and accesses nothing outside its arrays: it reports an error or returns, whatever the displacements do on the way.", "quantifier": "all bodies, materials, loads and settings", "why_tests_cant": "termination for all inputs", "anchors": ["src/lib/FESolver.cpp: NonlinearFESolver::solve", "src/lib/elements/SOLID81.cpp: buildK, update", "src/lib/elements/PLANE41.cpp: buildK, update", "src/lib/FEStorage.cpp: assembleGlobalEqMatrices", "src/lib/FESolver.cpp: TimeControl::nextStep", "src/lib/math/EquationSolver.cpp: GaussDenseEquationSolver"]}
{"id": "C149", "title": "A linear structure gives the same result in NonlinearFESolver and LinearFESolver", "statement": "A structure whose element matrices do not depend on the solution has the same displacements and reactions in NonlinearFESolver, for all numbers of load steps, as in LinearFESolver.", "quantifier": "all meshes, elements with constant stiffness, MPC collections, loads, prescribed displacements, numbers of load steps and iterations", "why_tests_cant": "the tests run each element in one solver only", "anchors": ["src/lib/FESolver.cpp: NonlinearFESolver::solve", "src/lib/FESolver.cpp: LinearFESolver::solve", "src/lib/elements/TRUSS3.cpp: buildK", "src/lib/elements/TETRA0.cpp: buildK"]}
{"id": "C150", "title": "The program on hyperelastic bodies: from mesh file and arguments to the status", "statement": "For a mesh file and arguments that state a well-formed body of PLANE41 or SOLID81 elements, the program does one Newton step of the equations of equilibrium of that body per iteration, makes exactly the asked number of load steps at equal times, and its exit status is 0 exactly if there is no reference curve, or the reference has as many values as load steps plus one and its mean absolute difference to the sums of the reactions at the ends of the load steps does not exceed a positive threshold. If the solution fails the program ends with an error; it always comes to an end without undefined behaviour.", "quantifier": "all argument lists, file contents, meshes, loads, prescribed displacements, MPC equations, hyperelastic materials with bulk modulus, reference files, conversions of numbers; exact arithmetic", "why_tests_cant": "the tests run a few meshes with their own reference curves; the connection between reader, setup, solver, reaction processor and exit status for all inputs is out of their reach", "anchors": ["src/main.cpp: main", "src/main.cpp: parse_args", "src/main.cpp: compareCurves", "src/lib/FEReaders.cpp: readCdbFile", "src/lib/FESolver.cpp: NonlinearFESolver::solve", "src/lib/ReactionProcessor.cpp: process"]}
{"id": "C151", "title": "The numbers of the nodes in the mesh file do not matter", "statement": "Two mesh files that differ only by a renumbering of the nodes (in the table of nodes, cells, boundary conditions, MPC equations and components of nodes alike) give the same problem and the same status of the program.", "quantifier": "all meshes, all renumberings that are injective on the nodes, all options and argument lists, all number types, all equation solvers", "why_tests_cant": "the test meshes have one numbering each; no test renumbers a mesh", "anchors": ["src/lib/FEReaders.cpp: MeshData::compressNumbers", "src/main.cpp: main"]}
{"id": "C152", "title": "The place of a body or structure does not matter", "statement": "If all nodes are moved by the same vector, every result (displacements, temperatures, reactions, strains, stresses, fluxes) and the exit status of the program stay exactly the same; PLANE41 does not look at z at all.", "quantifier": "all meshes, vectors, loads, prescribed values, MPC equations, materials, equation solvers, load steps; TRUSS3, TETRA0 (LinearFESolver), TETRA1, QUADTH, SurfaceLINETH (LinearFESolver and LinearTransientFESolver for the last two), PLANE41 and SOLID81 (NonlinearFESolver, and the whole program from files to status); exact arithmetic", "why_tests_cant": "every test has its mesh at one place", "anchors": ["src/lib/elements/isoparametric.cpp: makeJacob", "src/lib/elements/TRUSS3.cpp: buildK", "src/lib/elements/TETRA0.cpp: buildK", "src/lib/elements/TETRA1.cpp: buildK", "src/lib/elements/QUADTH.cpp: buildK", "src/main.cpp: main"]}
{"id": "C153", "title": "The order of the commands in the mesh file does not matter", "statement": "A mesh file may consist of any sequence of tables of nodes (NBLOCK), tables of cells (EBLOCK, long and short), fixed values, loads, equations, components, ET and *SET lines and lines that are ignored (comments, unknown commands, empty lines). It is read as the mesh that collects the entries of each kind in the order of the file. Two files whose commands of each kind come in the same order are read as the same mesh.", "quantifier": "all sequences of commands of any length, all entries within the width of the columns, all ignored lines, all mixtures of line endings, all number types with a format that is read back", "why_tests_cant": "the meshes of the tests were written by one program, which writes the commands in one order", "anchors": ["src/lib/FEReaders.cpp: readCdbFile"]}
{"id": "C154", "title": "The direction of trusses and heat conducting bodies does not matter", "statement": "If the nodes, loads and supports of a truss are turned by an orthogonal matrix (rotation or reflection) and moved, the solved displacements and the external forces (loads and reactions) are turned by the same matrix and the reported stresses are the same. If the nodes of a body of TETRA1, QUADTH and SurfaceLINETH elements are rotated and moved (about z when there are QUADTH elements), the run has the same outcome with the same temperatures and heat, and the reported fluxes are rotated; in transient runs everything is the same.", "quantifier": "all orthogonal matrices (rotations for heat), all shifts, all trusses and all bodies of heat conducting elements of any size, all loads and supports; for heat any equation solver, steps and outcomes", "why_tests_cant": "the meshes of the tests have one direction", "anchors": ["src/lib/elements/TRUSS3.cpp", "src/lib/elements/TETRA1.cpp", "src/lib/elements/QUADTH.cpp", "src/lib/FESolver.cpp: LinearFESolver::solve"]}
{"id": "C155", "title": "The direction of a structure of bars and tetrahedra does not matter", "statement": "If the nodes, loads and supports of a structure of TRUSS3 bars and TETRA0 tetrahedra are rotated and moved, the solved displacements and the external forces (loads and reactions) are rotated by the same matrix, the stresses of the bars and the volumes of the tetrahedra are the same, and the strain and stress tensors of the tetrahedra are rotated (Q T Q^T).", "quantifier": "all rotations, all shifts, all structures of bars and tetrahedra of any size, all materials, all loads and supports", "why_tests_cant": "the meshes of the tests have one direction", "anchors": ["src/lib/elements/TETRA0.cpp", "src/lib/elements/TRUSS3.cpp", "src/lib/FESolver.cpp: LinearFESolver::solve"]}
{"id": "C156", "title": "The units of length and force do not matter", "statement": "If a structure of TRUSS3 bars and TETRA0 tetrahedra is given in other units (coordinates and prescribed displacements multiplied by l, loads by f, areas by l^2, Young moduli by f / l^2), the solved displacements are multiplied by l, the external forces (loads and reactions) by f, the stresses of bars and tetrahedra by f / l^2, the volumes by l^3, and the strains are the same.", "quantifier": "all l > 0 and all f, all structures of bars and tetrahedra of any size, all loads and supports", "why_tests_cant": "the tests have one system of units", "anchors": ["src/lib/elements/TETRA0.cpp", "src/lib/elements/TRUSS3.cpp", "src/lib/FESolver.cpp: LinearFESolver::solve"]}
