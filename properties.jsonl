{"id": "C01", "title": "Every lattice link is a bond exactly once", "statement": "For an nx-by-ny unit cell the network's bond list contains each nearest-neighbour link of the periodic lattice exactly once: every site has exactly one bond end in each of the four directions (left, up, right, down), every bond joins a site to its torus neighbour in the stated direction, there are 2*nx*ny bonds and nx*ny sites, and no duplicates.", "quantifier": "all unit-cell sizes nx, ny >= 1", "why_tests_cant": "tests look at a couple of fixed cell sizes; the claim is for every size including 1xN cells", "anchors": ["acetn/ipeps/tensor_network.py:TensorNetwork.build_bond_list", "acetn/ipeps/tensor_network.py:TensorNetwork.build_site_list"]}
{"id": "C02", "title": "Wrapping one-site terms into bond gates conserves the Hamiltonian", "statement": "When every site has a one-site Hamiltonian, the sum over the bond list of the two-site generators used for the gates (bond term plus a quarter of the one-site terms of both ends) equals the model's total Hamiltonian: sum of all bond terms plus sum of all site terms, each site term counted exactly once.", "quantifier": "all unit-cell sizes, all models with a one-site term on every site, all physical dimensions, all embeddings of operators in the many-body space", "why_tests_cant": "an example lattice checks one counting; the identity must hold for every lattice and every site-dependent Hamiltonian", "anchors": ["acetn/evolution/gate.py:Gate.build_two_site_gates", "acetn/ipeps/tensor_network.py:TensorNetwork.build_bond_list"]}
{"id": "C03", "title": "One-site terms are dropped when an end has none", "statement": "If a model returns None as the one-site Hamiltonian of one end of a bond, the gate of that bond contains no one-site term of either end, although the measured energy counts the term: the total generator misses exactly a quarter of a site's term for each of its bonds whose other end has None.", "quantifier": "all models, all None patterns, all unit cells", "why_tests_cant": "needs every pattern of missing one-site terms, not one model", "anchors": ["acetn/evolution/gate.py:Gate.build_two_site_gates", "acetn/measurement/measure.py:measure_site_energy"]}
{"id": "C04", "title": "Gates used by an evolution are those of its own model and time step", "statement": "Immediately after a Gate object is built for a model and dtau, indexing it with any bond of the list returns exp(-dtau*generator) of that model for that bond, whatever gates other evolutions of the process built before.", "quantifier": "all previous histories of gate constructions in the process, all models, dtau, bond lists", "why_tests_cant": "the table is shared by the class, so the claim is about every earlier history", "anchors": ["acetn/evolution/gate.py:Gate", "acetn/evolution/evolve.py:evolve"]}
{"id": "C05", "title": "Gate objects share one table", "statement": "A gate object built earlier returns, for every bond or site that a later gate object also covers, the later object's gate; only keys not covered later keep the old value.", "quantifier": "all sequences of gate constructions", "why_tests_cant": "needs every interleaving of constructions", "anchors": ["acetn/evolution/gate.py:Gate._gate"]}
{"id": "C06", "title": "Building gates must not change the model's Hamiltonian", "statement": "A model whose two_site_hamiltonian hands out a freshly built operator on every call gets the right gate on each bond and keeps its Hamiltonian; a model that caches one operator and returns it for every bond has that operator changed in place, so that the n-th bond's gate contains the one-site terms of the first n bonds and later energy measurements use the corrupted operator.", "quantifier": "all models of both kinds, all bond lists, all histories", "why_tests_cant": "depends on object identity and history, not on one input/output pair", "anchors": ["acetn/evolution/gate.py:Gate.build_two_site_gates"]}
{"id": "C07", "title": "Evolution schedule", "statement": "evolve(dtau, steps) applies the bond update to every bond of the bond list exactly once per step, in alternating forward/backward order; over an even number of steps the whole sequence of updates is a palindrome (symmetric Trotter splitting).", "quantifier": "all step counts, all bond lists, all update functions", "why_tests_cant": "ordering over an unbounded number of steps", "anchors": ["acetn/evolution/evolve.py:evolve"]}
{"id": "C08", "title": "Splitting an evolution into several calls", "statement": "evolve with n steps followed by evolve with m steps applies the same sequence of bond updates as one call with n+m steps, because the bond order left behind by the first call is the one the second starts from; after an odd number of steps the network's bond list stays reversed.", "quantifier": "all n, m, bond lists", "why_tests_cant": "unbounded step counts and history dependence", "anchors": ["acetn/evolution/evolve.py:evolve"]}
{"id": "C09", "title": "Timing labels", "statement": "The debug report's 'full update' figure is the average of the boundary (ctm) time and its 'ctm update' figure that of the tensor-update time: the two are exchanged, for every run.", "quantifier": "all runs, all per-bond timings", "why_tests_cant": "a universally quantified statement about reported figures", "anchors": ["acetn/evolution/evolve.py:evolve", "acetn/evolution/fast_full_update.py:FastFullUpdater.bond_update"]}
{"id": "C10", "title": "Rotating the bond to canonical position and back loses nothing", "statement": "Permuting a site tensor by a bond's direction k and then by 4-k gives back the same tensor, and after permuting by k the leg that lies on direction (0+k) is first: the update acts on the bond legs of both sites.", "quantifier": "all site tensors, all four directions", "why_tests_cant": "all shapes and entries", "anchors": ["acetn/evolution/tensor_update.py:TensorUpdater.permute_bond_tensors", "acetn/ipeps/site_tensor.py:SiteTensor.bond_permute"]}
{"id": "C11", "title": "One CTMRG sweep refreshes the whole environment", "statement": "In one CTMRG step every corner and edge tensor of every site in the unit cell is recomputed at least once, each directional move visits every row/column exactly once, and no site tensor is ever changed by renormalisation.", "quantifier": "all unit cells, all states, any number of steps", "why_tests_cant": "every lattice size and every state", "anchors": ["acetn/renormalization/ctmrg.py:ctmrg", "acetn/renormalization/directional_mover.py:DirectionalMover.renormalize_boundary"]}
{"id": "C12", "title": "A directional move is a simultaneous update", "statement": "A left/right/up/down move writes, for each row, exactly the two corners and the edge facing away from the absorbed column at the neighbouring column, each computed from the state before the move; nothing else changes, so the order of the rows does not matter. (For unit cells of width 1 in the move direction source and target coincide and the later row still never reads an already updated tensor.)", "quantifier": "all unit cells, all states, all projector functions", "why_tests_cant": "the loop reads and writes the same table; independence of the order is a statement about all states", "anchors": ["acetn/renormalization/directional_mover.py:DirectionalMover.left_move", "acetn/renormalization/directional_mover.py:DirectionalMover.right_move", "acetn/renormalization/directional_mover.py:DirectionalMover.up_move", "acetn/renormalization/directional_mover.py:DirectionalMover.down_move"]}
{"id": "C13", "title": "Renormalisation never fails on tensor shapes", "statement": "Starting from any network whose boundary tensors fit together, no contraction in any directional move, with either projector type, meets mismatching dimensions, and the boundary tensors fit together again afterwards; so arbitrary sequences of moves never raise a shape error.", "quantifier": "all unit cells, bond/physical/boundary dimensions, all site tensors, all sequences of moves, all numbers of kept singular values", "why_tests_cant": "dimension bookkeeping over unbounded sequences of moves with data-dependent truncation", "anchors": ["acetn/renormalization/directional_mover.py:DirectionalMover", "acetn/renormalization/projectors.py:ProjectorCalculator"]}
{"id": "C14", "title": "Boundary dimension never exceeds chi after a sweep", "statement": "After one full CTMRG step every boundary leg of every corner and edge tensor has dimension at most chi, although the freshly initialised boundary has dimension bond**2, which may be larger.", "quantifier": "all unit cells, all dims including bond**2 > chi, all states", "why_tests_cant": "data-dependent truncation over every lattice", "anchors": ["acetn/renormalization/ctmrg.py:ctmrg", "acetn/renormalization/projectors.py:ProjectorCalculator.calculate_projectors", "acetn/ipeps/site_tensor.py:SiteTensor.initialize_corner_tensors"]}
{"id": "C15", "title": "Number of kept boundary states", "statement": "The number of columns of a projector is min(chi, number of singular values strictly above svd_cutoff relative to the largest); it is at least 1 for a non-zero environment when cutoff < 1 and chi >= 1.", "quantifier": "all singular spectra, cutoffs and chi", "why_tests_cant": "all spectra", "anchors": ["acetn/renormalization/projectors.py:ProjectorCalculator.calculate_projectors"]}
{"id": "C16", "title": "When a distributed move runs through", "statement": "With ws processes the distributed left-right move on an ny-row cell (up-down move on nx columns) runs to completion on all ranks exactly when, with h = ws//2, either ws is even and h is 1, ny-1 or ny, or ws is odd and ny = h+1. For every other world size >= 2 it raises: UnboundLocalError if ny < ws - h, KeyError for a missing row otherwise.", "quantifier": "all world sizes >= 2, all unit cells, all ranks", "why_tests_cant": "all numbers of processes and lattice sizes", "anchors": ["acetn/renormalization/directional_mover.py:DirectionalMover.left_right_move_dist", "acetn/renormalization/directional_mover.py:DirectionalMover.up_down_move_dist"]}
{"id": "C17", "title": "Distributed move equals the sequential moves (half-system projectors)", "statement": "Whenever the distributed left-right (up-down) move completes, its effect with half-system projectors computed by a deterministic (full-rank) SVD is, on every rank, exactly that of the sequential left move followed by the right move (up then down), for every world size, column pair and state.", "quantifier": "all world sizes that complete, all unit cells, all states, all ranks", "why_tests_cant": "schedule and state quantification", "anchors": ["acetn/renormalization/directional_mover.py:DirectionalMover.left_right_move_dist", "acetn/renormalization/projectors.py:ProjectorCalculator.calculate_half_system"]}
{"id": "C18", "title": "All ranks stay identical", "statement": "If all ranks hold the same network before a distributed evolution/renormalisation sequence, they hold the same network after it, whatever the (possibly different) values non-zero ranks would have computed.", "quantifier": "all world sizes, all sequences of moves and bond updates, all states", "why_tests_cant": "every schedule of collective operations", "anchors": ["acetn/renormalization/directional_mover.py:DirectionalMover.left_right_move_dist", "acetn/evolution/fast_full_update.py:FastFullUpdater.bond_update"]}
{"id": "C19", "title": "Distributed move with full-system projectors differs from the sequential one", "statement": "The second direction of a distributed move uses projectors computed from the network before the first direction's update. So the result is that of the sequential moves whenever the first move does not change the second direction's projectors, and with full-system projectors there are states where the results differ.", "quantifier": "all states (characterisation) and a witness", "why_tests_cant": "needs a statement over all projector functions", "anchors": ["acetn/renormalization/directional_mover.py:DirectionalMover.left_right_move_dist", "acetn/renormalization/projectors.py:ProjectorCalculator.calculate_full_system"]}
{"id": "C20", "title": "Projector pair is biorthogonal", "statement": "With an exact SVD of the cut environment, the two projectors returned for a cut satisfy P1^T P2 = c * identity with one positive constant c, on the kept space.", "quantifier": "all environments, boundary dimensions, kept numbers, real and complex", "why_tests_cant": "all matrices of all sizes", "anchors": ["acetn/renormalization/projectors.py:ProjectorCalculator.calculate_projectors", "acetn/renormalization/projectors.py:ProjectorCalculator.calculate_half_system"]}
{"id": "C21", "title": "Untruncated projectors are exact", "statement": "If no non-zero singular value is discarded, inserting the projector pair in the cut reproduces the environment: R1 (P2 P1^T) R2 is a positive multiple of R1 R2.", "quantifier": "all environments, all dimensions, real and complex", "why_tests_cant": "all matrices", "anchors": ["acetn/renormalization/projectors.py:ProjectorCalculator.calculate_projectors"]}
{"id": "C22", "title": "Full-system rsvd projector for complex tensors", "statement": "The full-system projector built in the rsvd path equals the one built in the full-rank path from the same singular vectors when all tensors are real; for complex tensors it uses the conjugated environment and is a different tensor, so biorthogonality fails.", "quantifier": "all real environments (equality); complex witness", "why_tests_cant": "equality over all real inputs, inequality for complex ones", "anchors": ["acetn/renormalization/projectors.py:ProjectorCalculator.calculate_full_system"]}
{"id": "C23", "title": "Randomised SVD returns an SVD of its projection", "statement": "For every random draw, the randomised SVD of A returns U, s, V with orthonormal columns, ordered non-negative s, and U diag(s) V^H = Q Q^H A for some Q with orthonormal columns; if the sampled columns span those of A, it equals A. The fused two-matrix variant returns exactly what the plain routine returns on the product. The fused four-matrix variant, which orthonormalises twice per iteration, has the same guarantee for the product, and gives the same matrix U diag(s) V^H as the plain routine whenever the power-iterated sample has full column rank.", "quantifier": "all matrices, all random draws, all q and niter", "why_tests_cant": "all inputs and all random draws", "anchors": ["acetn/linalg/svd_lowrank.py:svd_lowrank", "acetn/linalg/fused_matmul_svd_lowrank.py:fused_matmul_svd_lowrank", "acetn/linalg/fused_3matmul_svd_lowrank.py:fused_3matmul_svd_lowrank"]}
{"id": "C24", "title": "Products of Pauli operators have the right matrix", "statement": "A product of any number of single-site Pauli operators X, Y, Z, I, grouped in any way, has as matrix the tensor product of the textbook Pauli matrices in the order written (entry (i,j) is the product over positions of the entries selected by the binary digits of i and j) - in complex dtype always, in real dtype whenever the product contains an even number of Y, and -i times it when the number is odd.", "quantifier": "all finite products, all parenthesisations, real and complex dtype", "why_tests_cant": "unbounded products and all groupings; the real-dtype sign rule is subtle", "anchors": ["acetn/model/pauli_matrix.py:PauliMatrix.__mul__", "acetn/model/pauli_matrix.py:PauliMatrix.__init__"]}
{"id": "C25", "title": "Pauli sums and products of sums", "statement": "In complex dtype every expression built from Pauli operators with products, sums, differences, negation, scaling and division has exactly the matrix it denotes (or raises the same dimension error). In real dtype this holds for every expression whose terms all have the same Y parity and whose products agree with the letters written, in particular for every real linear combination of products with an even number of Y; a product of two Y-odd sums one of which is written with an even number of letters Y has the wrong sign, e.g. (Y+Y)*(Y+Y).", "quantifier": "all expressions; real-dtype witness", "why_tests_cant": "all expressions", "anchors": ["acetn/model/pauli_matrix.py:PauliMatrix.__add__", "acetn/model/pauli_matrix.py:PauliMatrix.__mul__"]}
{"id": "C26", "title": "In-place Pauli product", "statement": "A *= B for Pauli operators gives the bare matrix kron(A,B) without the real-dtype sign correction: it equals the matrix of A*B if and only if A is complex, or A has an even number of Y in its key, or A*B has an odd number, or the matrix is zero.", "quantifier": "all operators and dtypes", "why_tests_cant": "all operator pairs", "anchors": ["acetn/model/pauli_matrix.py:PauliMatrix.__imul__"]}
{"id": "C27", "title": "Measured averages", "statement": "measure() returns under 'Energy' the sum of normalised site energies plus normalised bond energies divided by the number of sites, and under every observable name the average over sites (bonds) of the normalised expectation values, for all models whose observable names are the same on all sites (bonds), distinct between one- and two-site, and different from 'Energy'.", "quantifier": "all models, unit cells, states", "why_tests_cant": "all models and dictionaries", "anchors": ["acetn/measurement/measure.py:measure"]}
{"id": "C28", "title": "Measurement key errors and collisions", "statement": "measure() raises KeyError exactly when some site offers an observable name that site (0,0) does not offer while (0,0) offers at least one, or some bond offers a name offered neither by the first bond of the current order (which offers at least one) nor by site (0,0); 'Energy' never raises. Otherwise it returns, and every reported value is the given formula: a name used both as one-site and two-site observable reports only the bond average, a one-site observable called 'Energy' is added into the energy, a two-site one called 'Energy' erases the site energies, and if site (0,0) offers nothing the observables of other sites are silently ignored.", "quantifier": "all models and name sets", "why_tests_cant": "all dictionaries; depends on the current bond order", "anchors": ["acetn/measurement/measure.py:calculate_one_site_measurements", "acetn/measurement/measure.py:calculate_two_site_measurements"]}
{"id": "C29", "title": "Measurement does not depend on the bond order", "statement": "The values returned by measure() (or the error raised) do not change when the network's bond list is reversed (as an odd number of evolution steps leaves it) or permuted in any way, and when the site list is permuted, provided all bonds offer the same observable names.", "quantifier": "all bond orders, models, states", "why_tests_cant": "all permutations", "anchors": ["acetn/measurement/measure.py:measure", "acetn/evolution/evolve.py:evolve"]}
{"id": "C30", "title": "Expectation values are scale-invariant and correctly normalised", "statement": "Rescaling every site tensor by any non-zero complex number and every corner and edge tensor by any non-zero real number, all chosen independently, leaves whatever measure() returns unchanged; the identity operator measures 1; expectation values are linear in the operator over the reals.", "quantifier": "all tensors with non-zero norm, all operators, all scalings", "why_tests_cant": "all tensors and scalings", "anchors": ["acetn/measurement/measure.py:measure_one_site", "acetn/measurement/measure.py:measure_two_site", "acetn/measurement/rdm.py:RDM.build_site_rdm"]}
{"id": "C31", "title": "The one-site density matrix is the full environment contraction", "statement": "rdm[site] equals the sum over all internal indices of the product of the four corners, four edges, the site tensor and its conjugate, joined as the CTM picture says, with the two physical legs open.", "quantifier": "all tensors and dimensions", "why_tests_cant": "all entries and dimensions", "anchors": ["acetn/measurement/rdm.py:RDM.build_site_rdm"]}
{"id": "C32", "title": "The two-site density matrix is the full environment contraction, blocked or not", "statement": "rdm[bond] (computed block by block) equals the unblocked computation and the sum over all internal indices of the product of the ten boundary tensors, the two site tensors and their conjugates; every entry of the preallocated result is written.", "quantifier": "all tensors, dimensions, all four directions", "why_tests_cant": "uninitialised memory and block boundaries for every dimension", "anchors": ["acetn/measurement/rdm.py:build_bond_rdm_core_blocked", "acetn/measurement/rdm.py:build_bond_rdm_core", "acetn/measurement/rdm.py:RDM.build_bond_rdm"]}
{"id": "C33", "title": "Networks in one process are not independent", "statement": "All networks of a process read and write one table of site tensors: after any history every network can read each of its sites and all networks read the same site tensor for it. Constructing a network resets the tensors of its cell's sites for all networks; to(dtype) and copy() convert the tensors that the original reads; what evolve writes through one network is what every other network reads.", "quantifier": "all histories of constructions, copies, conversions, evolutions, saves and loads, any number of networks", "why_tests_cant": "all histories", "anchors": ["acetn/ipeps/tensor_network.py:TensorNetwork._tensor_network", "acetn/ipeps/tensor_network.py:TensorNetwork.copy", "acetn/ipeps/tensor_network.py:TensorNetwork.to"]}
{"id": "C34", "title": "Save then load restores the state", "statement": "save always succeeds on a network of the process. After n.save(f), whatever is done to any network (as long as f is not saved again), m.load(f) succeeds and makes every network read, at each site stored, the tensor n read when saving, converted to n's dtype if n has the site and then to m's dtype; other sites are untouched. save itself only converts readable tensors to n's dtype, so tensors already of that dtype are unchanged.", "quantifier": "all histories between save and load, all networks", "why_tests_cant": "all histories", "anchors": ["acetn/ipeps/tensor_network.py:TensorNetwork.save", "acetn/ipeps/tensor_network.py:TensorNetwork.load"]}
{"id": "C35", "title": "A saved file holds every network's sites", "statement": "The saved file contains the site table of the whole process: its keys are exactly the sites of all networks constructed so far, so loading it also overwrites sites that the saved network does not have.", "quantifier": "all histories", "why_tests_cant": "all histories", "anchors": ["acetn/ipeps/tensor_network.py:TensorNetwork.save"]}
{"id": "C36", "title": "When evolve re-initialises the state", "statement": "evolve() on an Ipeps starts from the model's product state exactly when the network has had no earlier save, no load of an existing file, and no evolve call that got as far as obtaining its model, since its construction - even if it was constructed from another network's state, which is then discarded; otherwise it starts from the current tensors.", "quantifier": "all histories", "why_tests_cant": "all histories", "anchors": ["acetn/ipeps/ipeps.py:Ipeps.__init__", "acetn/ipeps/ipeps.py:Ipeps.evolve", "acetn/ipeps/tensor_network.py:TensorNetwork.load"]}
{"id": "C37", "title": "Shared configuration dictionaries", "statement": "set_chi changes the chi of exactly those networks whose configuration holds the same dims dictionary object, and of the caller's own dictionary, and nothing else; a network uses the caller's dictionary itself, one made by copy() or to() uses the original's, one without dims gets a dictionary no other network has, and this never changes later. set_model_params likewise changes one key of one params dictionary for all its holders.", "quantifier": "all histories of constructions and setters", "why_tests_cant": "aliasing over all histories", "anchors": ["acetn/ipeps/ipeps.py:Ipeps.set_chi", "acetn/ipeps/ipeps.py:Ipeps.set_model_params", "acetn/ipeps/ipeps_config.py:IpepsConfig"]}
{"id": "C38", "title": "Which model a network evolves with", "statement": "evolve()/measure() without an explicit model instantiate the class most recently registered by any network under the network's current model name; a network's own set_model is therefore overridden by another network's later set_model under the same name (default 'custom'). A non-Model class is rejected with TypeError and leaves everything unchanged.", "quantifier": "all histories of set_model calls by any number of networks", "why_tests_cant": "all histories", "anchors": ["acetn/ipeps/ipeps.py:Ipeps.set_model", "acetn/model/model_factory.py:ModelFactory.register", "acetn/model/model_factory.py:ModelFactory.create"]}
{"id": "C39", "title": "ALS solver backends agree", "statement": "The torch and the cuTENSOR ALS loops return the same reduced tensors (or the same error) for the same inputs, the same known method and linear solvers that agree, for all iteration limits, tolerances and cost values: they stop after the same iteration, although only one of them takes the absolute value of the initial cost. For an unknown method torch fails with an unbound variable unless als_niter is 0, the extension always refuses.", "quantifier": "all inputs, iteration limits, tolerances, cost sequences", "why_tests_cant": "all cost sequences", "anchors": ["acetn/evolution/als_solver.py:ALSSolver.solve_torch", "csrc/evolution/als_solve.cpp"]}
{"id": "C40", "title": "ALS iteration bounds", "statement": "The ALS loop performs at most als_niter sweeps and, for als_niter >= 3, at least 3 unless one fails; it stops at the first sweep with index > 1 whose relative cost change is below the tolerance. The solver returns the result of that number of sweeps of its initial guess, each sweep solving for the first reduced tensor and then, with the new first one, for the second.", "quantifier": "all inputs and tolerances", "why_tests_cant": "all cost sequences", "anchors": ["acetn/evolution/als_solver.py:ALSSolver.solve_torch"]}
{"id": "C41", "title": "Each ALS half-step is an exact minimisation", "statement": "Given a positive semidefinite norm tensor and als_epsilon = 0, each half-step of either method (cholesky, pinv) returns a reduced tensor that minimises the distance to the target over all tensors of its shape with the other one fixed, whatever the rank of the normal equations; pinv with a positive als_epsilon does so too if every non-zero eigenvalue of the normal equations is above the cutoff. The distance therefore never increases over any number of sweeps, and the pair returned by the solver is never further from the target than the initial guess.", "quantifier": "all norm tensors, targets, dimensions, competing tensors", "why_tests_cant": "all competing tensors of all sizes", "anchors": ["acetn/evolution/als_solver.py:ALSSolver.solve_a1r", "acetn/evolution/als_solver.py:ALSSolver.solve_a2r", "acetn/evolution/als_solver.py:ALSSolver.calculate_cost"]}
{"id": "C42", "title": "Regularised ALS half-step", "statement": "With the regularisation als_epsilon >= 0 a Cholesky half-step minimises distance + delta*|a|^2 exactly, with delta = als_epsilon times the largest modulus in the normal equations, so the distance increases by at most delta*(|old|^2-|new|^2); if delta > 0 the solve never fails.", "quantifier": "all inputs", "why_tests_cant": "all inputs", "anchors": ["acetn/evolution/als_solver.py:ALSSolver.solve_ar"]}
{"id": "C43", "title": "ALS cost is the distance to the gate-applied state", "statement": "The ALS cost plus the (constant) norm of the target equals the squared distance, in the metric of the norm tensor, between the two-site product of the reduced tensors and the gate-applied target.", "quantifier": "all Hermitian norm tensors and reduced tensors", "why_tests_cant": "all inputs", "anchors": ["acetn/evolution/als_solver.py:ALSSolver.calculate_cost"]}
{"id": "C44", "title": "Positive approximation terminates and is positive", "statement": "For every norm tensor and non-negative cutoff, if eigh does not raise, the positivity loop ends after at most one shift (none if all eigenvalues already reach the cutoff) and the returned square root reproduces (lower triangle of the norm tensor made Hermitian) + shift*identity, a Hermitian matrix all of whose eigenvalues are >= cutoff; for a Hermitian norm tensor this is norm + shift*identity. If eigh may raise and the SVD is used, any result is still a square root of a matrix with eigenvalues >= cutoff whose square is (norm + shift)^2.", "quantifier": "all norm tensors, cutoffs, eigh and SVD implementations meeting their specification", "why_tests_cant": "termination for all inputs", "anchors": ["acetn/evolution/full_update.py:positive_approx"]}
{"id": "C45", "title": "Gauge fixing does not change the problem", "statement": "Unless a non-zero gauge factor is at most the cutoff atol, for every pair of reduced tensors: undoing the gauge gives a pair whose distance to the original target in the original norm is the distance of the pair itself in the gauge-fixed problem; gauge-transforming a pair changes neither its distance nor the ALS cost. If no gauge factor is cut off the inverse gauges undo the gauges. After the positive approximation with cutoff c no factor is cut off if atol^2 < n*c. The final step returns the balanced version of the solver's pair with the gauges undone. The norm tensor handed to the solver is positive semidefinite in every configuration.", "quantifier": "all norm square roots, targets, reduced tensors, QR, SVD and eigh implementations meeting their specification", "why_tests_cant": "all inputs", "anchors": ["acetn/evolution/full_update.py:gauge_fix", "acetn/evolution/full_update.py:FullUpdater.finalize_reduced_tensors", "acetn/evolution/full_update.py:FullUpdater.precondition_norm_tensor"]}
{"id": "C46", "title": "Balancing the reduced tensors keeps the two-site state", "statement": "Unless the two-site product is zero (then the balancing divides by zero), the final QR/SVD balancing of the reduced tensors leaves the two-site product unchanged up to a positive factor and gives it unit norm, gives both tensors the same diagonal, descending Gram matrix on the shared bond (equal bond weights), and keeps every dimension.", "quantifier": "all reduced tensors, dimensions", "why_tests_cant": "all inputs", "anchors": ["acetn/evolution/full_update.py:FullUpdater.finalize_reduced_tensors"]}
{"id": "C47", "title": "Decomposing and recomposing site tensors is lossless", "statement": "Splitting site tensors into an isometric and a reduced part and recomposing them gives back the same tensors.", "quantifier": "all site tensors, dimensions", "why_tests_cant": "all inputs, needs index bookkeeping for every dimension", "anchors": ["acetn/evolution/tensor_update.py:TensorUpdater.decompose_site_tensors", "acetn/evolution/tensor_update.py:TensorUpdater.recompose_site_tensors"]}
{"id": "C48", "title": "Norm tensor and density matrix agree", "statement": "Contracting the norm tensor of a bond with the reduced tensors and their conjugates gives the trace of the bond's two-site density matrix, for all environments and all decompositions; more generally the gate-applied cost terms are density-matrix expectation values.", "quantifier": "all tensors, all directions, all decompositions", "why_tests_cant": "two independently written contractions agree for every input", "anchors": ["acetn/evolution/full_update.py:build_norm_tensor_core", "acetn/measurement/rdm.py:build_bond_rdm_core"]}
{"id": "C49", "title": "Blocked norm tensor equals the unblocked one", "statement": "build_norm_tensor_core_blocked returns the same tensor as build_norm_tensor_core for every size of the reduced leg, with every entry written.", "quantifier": "all dimensions, including those not divisible by the block size", "why_tests_cant": "block boundaries for every size", "anchors": ["acetn/evolution/full_update.py:build_norm_tensor_core_blocked"]}
{"id": "C50", "title": "Absorbing and stripping bond weights", "statement": "Absorbing the bond weights around a site and stripping them again, except on one leg, multiplies every entry by the product over the other legs of weight / max(weight, cutoff). For non-negative weights this gives back every tensor if and only if no weight on those legs is below the cutoff (1e-12): smaller weights are not undone.", "quantifier": "all weights, tensors, dimensions, directions, cutoffs", "why_tests_cant": "all inputs", "anchors": ["acetn/evolution/lambda_tensors.py:LambdaTensors.absorb", "acetn/evolution/lambda_tensors.py:LambdaTensors.strip"]}
{"id": "C51", "title": "Simple update truncation", "statement": "The two new reduced tensors of a simple-update step describe, up to a positive factor that normalises it, a closest approximation of the gate-applied two-site state among all states with the given bond dimension (Eckart-Young); if that approximation is zero the step divides by zero. The columns of both new tensors are orthogonal with squared lengths the squares of the new bond weights; the weights are non-negative, descending and their fourth powers sum to one. If the bond dimension suffices for the gate-applied state (in particular for the identity gate), the state is reproduced exactly up to the factor.", "quantifier": "all reduced tensors, gates, dimensions, SVD implementations meeting their specification", "why_tests_cant": "all inputs, and all competing approximations", "anchors": ["acetn/evolution/simple_update.py:SimpleUpdater.bond_update"]}
{"id": "C52", "title": "Bond-weight bookkeeping", "statement": "For every site and direction the weight looked up is that of the unique bond at that side; updating one bond changes the weights seen by its two end sites only, in opposite directions.", "quantifier": "all unit cells, all update histories", "why_tests_cant": "all lattices and histories", "anchors": ["acetn/evolution/lambda_tensors.py:LambdaTensors"]}
{"id": "C53", "title": "Unit cells of width one", "statement": "When nx = 1 (or ny = 1) the two ends of a horizontal (vertical) bond are the same site, and the bond update keeps only the second updated tensor; the first one is lost.", "quantifier": "all states, all updates", "why_tests_cant": "all states", "anchors": ["acetn/evolution/fast_full_update.py:FastFullUpdater.bond_update", "acetn/evolution/simple_update.py:SimpleUpdater.bond_update"]}
{"id": "C54", "title": "cuTENSOR strides", "statement": "The strides handed to cuTENSOR are those of a dense row-major tensor: distinct in-range multi-indices address distinct elements and all addresses lie inside the buffer.", "quantifier": "all extents, all ranks", "why_tests_cant": "all shapes", "anchors": ["csrc/linalg/contraction.h:compute_row_major_strides"]}
{"id": "C55", "title": "Absorbing an updated bond", "statement": "After a bond update the boundary moves applied by the non-distributed and the distributed code absorb the two columns (rows) that contain the updated sites, in both directions across the bond, for all four bond directions; with half-system deterministic projectors both codes leave the same network although for two of the four directions they run the moves in opposite orders.", "quantifier": "all bonds, directions, unit cells", "why_tests_cant": "all bonds and cells", "anchors": ["acetn/evolution/fast_full_update.py:FastFullUpdater.absorb_bond", "acetn/evolution/fast_full_update.py:FastFullUpdater.absorb_bond_dist"]}
{"id": "C56", "title": "Initial tensors", "statement": "A freshly initialised site has corners and edges of norm 1 and boundary dimension bond**2, its site tensor has norm 1, and corners and edges fit together.", "quantifier": "all dims, all initial states, all random draws, non-zero tensors", "why_tests_cant": "all random draws", "anchors": ["acetn/ipeps/site_tensor.py:SiteTensor.initialize_site_tensor", "acetn/ipeps/site_tensor.py:SiteTensor.initialize_corner_tensors", "acetn/ipeps/site_tensor.py:SiteTensor.initialize_edge_tensors"]}
{"id": "C57", "title": "Configuration normalisation", "statement": "For every configuration dictionary and environment that is accepted: the device is torch.device('cuda') only if CUDA is available (a request for it falls back to the CPU; an indexed request such as 'cuda:0' is kept even without CUDA); the backend is cutensor only if requested and the extension is available; inside a SLURM job both progress bars are disabled exactly when the job is not interactive, overriding the user, and outside they are as requested; the model is built with the configuration's dtype and device and with the physical dimension of the TN section, and with the user's name and parameters; every other option has the user's value if given and its documented default otherwise; misspelt options and a missing TN section are refused.", "quantifier": "all configurations and environments", "why_tests_cant": "all combinations", "anchors": ["acetn/ipeps/ipeps_config.py:IpepsConfig"]}
{"id": "C58", "title": "Built-in models", "statement": "The built-in Heisenberg and Ising models return, in both real and complex dtype, two-site Hamiltonians with the matrices J/4 (XX+YY+ZZ) and -jz ZZ and (Ising) the one-site term -hx X, entry by entry; they are Hermitian for real couplings.", "quantifier": "all couplings, both dtypes", "why_tests_cant": "all couplings", "anchors": ["acetn/model/models/heisenberg.py", "acetn/model/models/ising.py"]}
{"id": "C59", "title": "Neel initial state", "statement": "The Heisenberg initial state and staggered observables put the two ends of every bond on opposite sublattices exactly when nx and ny are both even; on every site the initial state is normalised and its staggered z magnetisation is +1. The default initial state is the first basis vector for every physical dimension.", "quantifier": "all unit cells", "why_tests_cant": "all sizes", "anchors": ["acetn/model/models/heisenberg.py"]}
{"id": "C60", "title": "Runtime wrapper", "statement": "The timing wrapper returns the wrapped result with the runtime appended: a bare runtime for None, the tuple extended by the runtime for a tuple, a pair otherwise; unpacking in the callers matches these shapes.", "quantifier": "all results", "why_tests_cant": "all result shapes", "anchors": ["acetn/utils/benchmarking.py:record_runtime"]}
{"id": "C61", "title": "Simple-update weights do not survive a call", "statement": "With update_type 'simple' every evolve call starts from unit bond weights: two calls of n and m steps perform the updates of one call of n+m steps with all weights reset to one after step n, so splitting a simple-update evolution changes the result.", "quantifier": "all states, bond lists, numbers of steps, update functions", "why_tests_cant": "A test compares a few splittings numerically and cannot tell a reset of the weights from rounding; the statement is about every splitting and every state.", "anchors": ["acetn/evolution/evolve.py:evolve", "acetn/evolution/simple_update.py:SimpleUpdater.__init__"]}
{"id": "C62", "title": "Direction names of bonds", "statement": "Model.bond_direction names the step from the first to the second site of a bond: every bond of a cell's bond list is '+x' or '+y', and its second site is the periodic neighbour of the first in that direction.", "quantifier": "all unit cells and bonds", "why_tests_cant": "Tests look at one or two cells; wrap-around bonds and cells of width one are easily missed.", "anchors": ["acetn/model/model.py:Model.bond_direction", "acetn/ipeps/tensor_network.py:TensorNetwork.build_bond_list"]}
{"id": "C63", "title": "measure() reports the expectation value of the transposed operator", "statement": "In a product state (bond and boundary dimension 1) with site vectors psi, the value measure() computes for a one-site operator O is Re <psi|O^T|psi>/<psi|psi>, and for a two-site operator on a bond of any direction Re <psi1 psi2|O^T|psi1 psi2>/<psi1 psi2|psi1 psi2>; in particular it is not <psi|O|psi>/<psi|psi>: for psi=(1,i) and O=Y the true value is 1 and -1 is reported.", "quantifier": "all physical dimensions, all site vectors of non-zero norm, all operators, all bond directions", "why_tests_cant": "tests use real states and symmetric operators, for which O and O^T agree; the convention matters for every complex state and antisymmetric operator part", "anchors": ["acetn/measurement/measure.py:184", "acetn/measurement/measure.py:198", "acetn/measurement/rdm.py"]}
{"id": "C64", "title": "A CTMRG move absorbs the line of sites into the boundary", "statement": "After a successful directional move, for every site of the moved line, contracting the new corner, edge and corner of the target site gives, up to a positive normalisation factor, the contraction of the old corners and edges with the site tensor and its conjugate attached and the projector pairs of the row and the next row inserted on the two cuts. If the new edge keeps the whole cut (its links have the old link dimension times D*D), the projectors drop out: the new boundary equals the old boundary with the site attached, up to a positive factor.", "quantifier": "all unit cells, directions, lines, bond dimensions, boundary dimensions, networks whose legs fit; the second part for the full-rank SVD with both projector types and the randomised SVD with half-system projectors", "why_tests_cant": "Numerical tests compare converged energies, to which a wrongly attached leg can be invisible when tensors are symmetric; the identity concerns every tensor entry of every network.", "anchors": ["acetn/renormalization/directional_mover.py:273", "acetn/renormalization/directional_mover.py:306", "acetn/renormalization/directional_mover.py:326", "acetn/renormalization/directional_mover.py:346"]}
{"id": "C65", "title": "A simple update of a bond replaces the pair state by its best approximation", "statement": "Updating a bond keeps the shapes of both site tensors and never fails except by dividing by zero when the best approximation vanishes. Otherwise the new site tensors, multiplied with their outer weights (weights below the cutoff counted as the cutoff), contract over the bond to a positive multiple, of unit norm, of the closest state with at most D bond states to the two-site gate applied to the old weighted pair state, followed by the one-site gates. Without one-site gates the parts of each new site tensor that belong to different bond states are orthogonal, with squared length the square of the new bond weight; the new weights are non-negative, ordered, and their fourth powers sum to one. If the gate-applied state needs no more than D bond states nothing is lost; in particular the identity gate leaves the weighted pair state unchanged up to normalisation when no outer weight is below the cutoff (and not otherwise).", "quantifier": "all bond dimensions, physical dimensions, bond directions, site tensors, weights, gates, cutoffs and all QR and SVD results meeting their specification", "why_tests_cant": "tests look at converged energies; optimality compares with every other pair of tensors and the leg permutations have to be right for every direction and tensor", "anchors": ["acetn/evolution/simple_update.py:36", "acetn/evolution/simple_update.py:76", "acetn/evolution/tensor_update.py"]}
{"id": "C66", "title": "What the initial guess of the ALS solver is", "statement": "For a zero target the guess divides by zero. Otherwise the first reduced tensor and the complex conjugate of the second describe, up to a positive factor, a best approximation of the gate-applied target with D bond states; both tensors have orthogonal columns with the same ordered weights, the first of which is one. For a real target and real singular vectors the two tensors themselves describe it. For a complex target they need not: there is a product target whose guess is orthogonal to it for every SVD, and with an orthonormal environment the solver then fails with a RuntimeError for every regularisation strength.", "quantifier": "all dimensions with D <= nD*pD, all targets, all SVD results meeting the specification", "why_tests_cant": "the tests use a few real states; the conjugation is invisible on real data and optimality compares with every pair of tensors", "anchors": ["acetn/evolution/als_solver.py:118", "acetn/evolution/als_solver.py:34"]}
{"id": "C67", "title": "What a full update of a bond does to the state of the pair", "statement": "The full update works in one metric: the environment of the bond (its lower triangle) plus the smallest multiple of the identity the positive approximation adds; gauge fixing only changes the basis. It ends with a division by a zero norm, with a failing linear solve, or with a new pair which is balanced, normalised and describes, up to a positive factor, a state whose second tensor is optimal for its first: no other second tensor is closer to the state after the gate in that metric. With real data, exact solves and a positive cutoff the result is never further from the state after the gate than a plain truncation of it, and if that state can be described with the given bond dimension the new pair describes exactly it, up to normalisation; in particular the identity gate changes nothing. With complex data this fails: on a product state with the identity gate and the identity as environment the update raises a RuntimeError, for every decomposition and every regularisation strength.", "quantifier": "all dimensions with D <= nD*pD, all reduced tensors, environments and gates, all decompositions meeting their specifications, all settings with a known method", "why_tests_cant": "optimality compares with every tensor, exactness needs exact arithmetic, and the failure is invisible on the real data the tests use", "anchors": ["acetn/evolution/full_update.py:34", "acetn/evolution/full_update.py:65", "acetn/evolution/als_solver.py:34"]}
{"id": "C68", "title": "A distributed program computes what the sequential one computes", "statement": "With half-system projectors from a deterministic SVD and a deterministic bond update, any program of boundary moves, CTMRG sweeps and fast-full-update bond updates which completes on a number of ranks leaves, on every rank, exactly the network the same program computes without distribution, whatever the random-generator states of the ranks; in particular the sequential program then completes too.", "quantifier": "all programs, world sizes, unit cells, networks, generator states", "why_tests_cant": "all programs and world sizes; the absorbing moves run in opposite orders for two bond directions", "anchors": ["acetn/renormalization/ctmrg.py:ctmrg", "acetn/evolution/fast_full_update.py:FastFullUpdater.bond_update"]}
{"id": "C69", "title": "What a full update of a bond does to the two site tensors", "statement": "A full update of a nearest-neighbour bond of any direction keeps the shapes of the two site tensors. If the ten boundary tensors around the bond contract to a Hermitian form, then unless the update fails with a zero norm or in a linear solve, the new site tensors describe, up to a positive factor and with the one-site gates on top, the state of a pair of site tensors whose second member is optimal for its first: no second tensor made of the outer parts of the old one is closer to the state after the gate, in the metric of the surroundings plus d times the plain one, where d is zero if the surroundings are above the cutoff. Without one-site gates both new tensors have norm one, and their parts on the bond are orthogonal with the same ordered weights. With real data, exact solves and a positive cutoff the update is exact whenever the state after the gate has the bond dimension of the bond, whatever the surroundings; in particular the identity gate leaves the state of the two sites unchanged up to a factor.", "quantifier": "all unit cells, sites, bond directions, dimensions, networks with matching shapes, gates, one-site gates, settings with a known method, decompositions meeting their specifications", "why_tests_cant": "optimality compares with every tensor, and the rotation of the legs must be undone for every bond direction and every pair of sites", "anchors": ["acetn/evolution/tensor_update.py:29", "acetn/evolution/full_update.py:34", "acetn/evolution/full_update.py:65"]}
{"id": "C70", "title": "The compiled backend's contractions are einsums", "statement": "For every einsum expression of two operands in which no label is repeated within an operand or within the output, and for all shapes, the compiled backend makes a contraction plan exactly if torch's einsum accepts operands of these shapes. Executing the plan leaves the entries of the einsum in the output buffer in row-major order and changes nothing behind them, whatever the buffer contained before. An expression with a label twice within an operand or the output is refused, though torch accepts it for operands. The only error raised is RuntimeError. The conjugation flags conjugate an operand for complex dtypes and do nothing for real ones.", "quantifier": "all expressions, all shapes (including empty ones and scalar outputs), all operands and buffer contents, both kinds of dtype", "why_tests_cant": "the parser, the extents and the strides must agree for every expression and every rank, and the backend needs a GPU to run", "anchors": ["csrc/linalg/contraction.h:115", "csrc/linalg/contraction.h:198", "csrc/linalg/contraction.cpp:3", "csrc/linalg/contraction.cpp:50"]}
{"id": "C71", "title": "The compiled ALS solver returns what the torch solver returns", "statement": "With the same settings, target and norm tensor the solver of the compiled backend returns the same pair of tensors as the torch solver: with the pseudo-inverse always, and then it also fails exactly if the torch solver fails; with the Cholesky method whenever the norm tensor is positive semi-definite, the shift is not negative and the torch solver returns. The initial content of newly allocated buffers does not matter. With the Cholesky method the compiled solver never reports a failure: it returns a pair of the right shapes whenever the initial guess exists, also where the torch solver raises an error because the normal matrix is singular.", "quantifier": "all dimensions, numbers of iterations, tolerances, norm tensors, targets, buffer contents, decompositions meeting their specifications; real and complex dtype", "why_tests_cant": "the buffers are overwritten in place over any number of iterations, the content of fresh memory and of a failed factorisation is arbitrary, and the backend needs a GPU", "anchors": ["csrc/evolution/als_solve.cpp:25", "csrc/evolution/als_solve.cpp:61", "csrc/evolution/als_solve.cpp:84", "csrc/evolution/als_tensors.cpp:29", "csrc/linalg/cholesky_solve.h:80", "acetn/evolution/als_solver.py:84"]}
{"id": "C72", "title": "Joining and leaving the process group", "statement": "For every environment and every history of constructing and deleting Ipeps objects in one process, the process belongs to the torch process group exactly if some construction joined it (RANK and WORLD_SIZE set, WORLD_SIZE > 1, 0 <= RANK < WORLD_SIZE, device exactly 'cpu' or 'cuda' with at least WORLD_SIZE of them) and since then no joined network has been deleted and no construction has failed after joining. So deleting one distributed network takes every other one out of the group: it still exists and still has is_distributed set, but every collective it takes part in fails, until another network is constructed. print and tqdm.write are replaced by no-ops for the rest of the process by the first attempted construction on a rank other than 0, even if it fails. Whether a construction succeeds does not depend on the history: it does if the environment asks for a single process (then the network has rank 0, size 1 and keeps its configured device and the process state is untouched) or if the network can join (then it knows RANK and WORLD_SIZE), and not otherwise.", "quantifier": "all environments, all finite histories of constructions and deletions", "why_tests_cant": "Needs several processes and GPUs and depends on the order in which objects are garbage-collected; histories are unbounded.", "anchors": ["acetn/utils/distributed.py:9", "acetn/utils/distributed.py:51", "acetn/utils/distributed.py:77", "acetn/ipeps/ipeps.py:43"]}
{"id": "C73", "title": "Where distributed networks live and when projectors can be gathered", "statement": "After any history that every rank runs, if a distributed network's tensors are on the host on some rank, gathering the projectors fails: with GPUs present the backend is NCCL, which refuses host tensors, and without GPUs the gathered shapes cannot be moved to device number rank. If every network of the history was constructed with device 'cuda', network i lives on GPU r on every rank r, and gathering succeeds exactly while the process group exists on every rank. The latter is false if a network with device 'cpu' was constructed before: then every rank uses GPU 0 and gathering fails although the group exists.", "quantifier": "all environments, world sizes, histories and networks", "why_tests_cant": "Needs multi-process runs on machines with and without GPUs; the claim about the CPU covers all machines and histories.", "anchors": ["acetn/utils/distributed.py:51", "acetn/utils/distributed.py:85", "acetn/utils/distributed.py:104", "acetn/renormalization/directional_mover.py:205"]}
{"id": "C74", "title": "A session never meets tensors that do not fit", "statement": "Take a network constructed for any unit cell, bond dimension b, physical dimension p and boundary dimension, and any finite sequence of calls - setting the boundary dimension (to a positive value), renormalize, evolve (full or simple update, with or without separate one-site gates), measure - with initial states, gates and models of matching physical dimension. The session ends. If it raises, the reason is a zero norm or, only with the full update and als_method 'cholesky', a failed factorisation; it is never a shape mismatch, a missing key or an unbound variable. Otherwise all tensors fit together with no boundary leg larger than max(b^2, largest boundary dimension set), the bond list is a permutation of the lattice's bonds, and there is one result containing 'Energy' per measurement. After a renormalize or evolve call with ctmrg_steps > 0 no boundary leg exceeds the boundary dimension set last. The construction itself succeeds if torch.rand's entries and the noise are not negative.", "quantifier": "all unit cells, dimensions, configurations, call sequences, random values and LAPACK results", "why_tests_cant": "The sequences, dimensions and intermediate ranks are unbounded; a shape error appears only for particular orders of calls and truncations.", "anchors": ["acetn/ipeps/ipeps.py:27", "acetn/ipeps/ipeps.py:92", "acetn/ipeps/ipeps.py:98", "acetn/ipeps/ipeps.py:117", "acetn/evolution/evolve.py:31", "acetn/evolution/fast_full_update.py:29"]}
{"id": "C75", "title": "Full-update sessions keep the site tensors normalised", "statement": "With the full update and gates without a separate one-site part, after any sequence of calls that does not raise, every site tensor of the network has norm one.", "quantifier": "all unit cells, dimensions, configurations and call sequences", "why_tests_cant": "Sequences and dimensions are unbounded; a lost normalisation shows only as slow drift.", "anchors": ["acetn/evolution/full_update.py:35", "acetn/evolution/tensor_update.py:41", "acetn/ipeps/site_tensor.py:35"]}
{"id": "C76", "title": "With bond dimension 1 measurements are exact mean-field values", "statement": "For bond dimension 1, any gates (entangling or not) and any sequence of calls on a constructed network that does not raise, a measurement reports exactly the energy per site and the averages of the observables in the product state of the vectors stored at the sites: each number is the ratio of an expectation value and a norm computed from the one or two site vectors alone. Boundary dimension, number of CTMRG steps, truncation, kind of projectors (half-system, or full-system with full-rank SVD) and the boundary tensors have no influence.", "quantifier": "all unit cells, physical dimensions, complex site vectors, gates, models, configurations, call sequences and LAPACK results", "why_tests_cant": "The boundary tensors carry arbitrary complex phases from the SVDs of every move of the history; only an argument for all of them shows that they cancel around every closed ring.", "anchors": ["acetn/ipeps/ipeps.py:117", "acetn/measurement/measure.py:21", "acetn/measurement/rdm.py:6", "acetn/renormalization/directional_mover.py:34", "acetn/renormalization/projectors.py:36"]}
{"id": "C77", "title": "With bond dimension 1 and product gates a session is exact product-state dynamics", "statement": "Let the bond dimension be 1 and let every two-site gate be a product of two one-site matrices. Whenever a session returns, with either update, the vector at every site is a non-zero multiple of what one gets from the initial vector (the given state plus the noise) by applying, bond by bond in the order of the bond list (reversed in every other step), the factors of the gates and then the separate one-site gates, the second site of a bond being written last; and every measurement reports the values of that product state at that moment. With the simple update, full-rank projectors, a cutoff below 1 and gates that send no vector to zero, no such session can fail.", "quantifier": "all unit cells (including one site wide), physical dimensions, states, product gates, one-site gates, step counts, call sequences and LAPACK results", "why_tests_cant": "It relates the whole program (ALS solver, gauge fixing, positive approximation, SVD truncation, CTMRG and measurement) to a few lines of linear algebra for every history.", "anchors": ["acetn/evolution/evolve.py:31", "acetn/evolution/full_update.py:12", "acetn/evolution/simple_update.py:28", "acetn/evolution/als_solver.py:30", "acetn/ipeps/ipeps.py:98"]}
{"id": "C78", "title": "How the calls of a session work together", "statement": "A session of several calls is the calls one after the other, results in call order. A measurement reports what the network holds at that moment and changes nothing for the calls after it. The boundary dimension is the one set last, and once the network has been renormalised or evolved after that no boundary leg is longer. Renormalising with k CTMRG steps and again with m is renormalising once with k + m. evolve with zero steps of an initialised network is two renormalisations.", "quantifier": "all call sequences, states, configurations, models and gates", "why_tests_cant": "A test fixes one sequence of calls; interference between calls (hidden state left by a measurement, a boundary dimension that is not picked up) shows in others.", "anchors": ["acetn/ipeps/ipeps.py:92", "acetn/ipeps/ipeps.py:98", "acetn/ipeps/ipeps.py:117", "acetn/renormalization/ctmrg.py:18"]}
{"id": "C79", "title": "Weights used by simple-update evolutions", "statement": "In an evolve call with the simple update, the weight vector used for a leg of a site is the one computed last in this call for the bond at that leg, or ones if there is none yet; a bond update stores its new vector at both ends of its bond and nowhere else. The bonds are updated in the order of the bond list, reversed in every other step. No KeyError occurs.", "quantifier": "all unit cells including one site wide, orders of the bond list, gates, tensors, step counts", "why_tests_cant": "The code keeps the vectors in a table keyed by bonds and a second one from (site, direction) to bonds; that the two stay consistent through every schedule on every cell is a statement about all of them.", "anchors": ["acetn/evolution/lambda_tensors.py:14", "acetn/evolution/simple_update.py:28", "acetn/evolution/evolve.py:31"]}
{"id": "C80", "title": "Simple-update evolutions do not look at the boundary", "statement": "Take an initialised network with the simple update. The site tensors at the end of a session depend only on the site tensors at its beginning and on its evolve calls: renormalisations, measurements and boundary-dimension changes between them, the kind of projectors, the truncation, the number of CTMRG steps, the random state and the boundary tensors have no influence (as long as nothing raises).", "quantifier": "all pairs of sessions with the same evolve calls, all boundaries, configurations and random states", "why_tests_cant": "It compares two arbitrary sessions.", "anchors": ["acetn/evolution/simple_update.py:28", "acetn/ipeps/ipeps.py:98", "acetn/evolution/evolve.py:31"]}
{"id": "C81", "title": "The physical basis does not matter to renormalisation and measurement", "statement": "CTMRG sees a site tensor only through its double layer, the sum over the physical index of A times conj(A). Two networks with the same corners and edges whose site tensors have the same double layers, even with different physical dimensions, fail with the same exception or end with the same random state and the same corners and edges. In particular let every site tensor be turned by a matrix V with orthonormal columns on its physical leg (a change of basis, different at each site, or an embedding into a larger space): density matrices become conj(V) rho V^T, and any session of renormalise, measure and set-boundary-dimension calls, with the operators of the model turned to conj(V) O V^T, returns the same dictionaries or raises the same exception.", "quantifier": "all unit cells, bond, physical and boundary dimensions, networks that fit, isometries, models, projector types and configurations, all call sequences without evolve", "why_tests_cant": "It compares two arbitrary networks related by an arbitrary isometry through arbitrarily long sessions, including the exceptions.", "anchors": ["acetn/renormalization/directional_mover.py", "acetn/renormalization/projectors.py", "acetn/measurement/rdm.py:19", "acetn/measurement/measure.py:5", "acetn/ipeps/ipeps.py:92"]}
{"id": "C82", "title": "Truncated projectors lose as little as possible", "statement": "The number of states the projector pair keeps is the number of singular values of the cut R1 R2 above svd_cutoff times the largest, at most chi. Up to one positive factor, R1 (P2 P1^T) R2 is at least as close to R1 R2 (Frobenius norm) as every matrix of rank at most that number, and the squared distance is exactly the sum of the squares of the singular values left out. If chi is no restriction, the squared relative error is at most min(m, n) times svd_cutoff squared. This holds for half- and full-system projectors with full-rank SVD, for half-system projectors with the randomised SVD whenever its random sample meets the whole column space, and for full-system ones then if the tensors are real.", "quantifier": "all quarters that fit, all dimensions, real and complex, every chi, cutoff, and random draw", "why_tests_cant": "It compares with every matrix of bounded rank, for every environment and truncation.", "anchors": ["acetn/renormalization/projectors.py:ProjectorCalculator.calculate_projectors"]}
{"id": "C83", "title": "Simple updates that lose nothing act on the whole state", "statement": "Take a unit cell with at least two sites in each direction and any finite periodic lattice covering it, and let the amplitudes of the state be the sums over all bond states of the products of site-tensor entries. If in every bond update of an evolve call with simple updates no weight below the cutoff belongs to an occurring bond state and bD bond states suffice for what the gate makes of the two sites, then the final amplitudes are, up to one positive factor, the initial ones with the gates of the schedule applied one bond after the other at all copies of the bond (one-site gates after the bond gate; the gate index order is (old, old, new, new)). Gates that act on the two sites separately never need more bond states; with bond dimension 1 no weight is ever cut.", "quantifier": "all covers of the unit cell, all bond dimensions, site tensors, gates, numbers of steps, boundary dimensions, random draws and library results meeting their specification", "why_tests_cant": "It concerns all amplitudes of arbitrarily large lattices and whole evolutions; tests compare energies on small models.", "anchors": ["acetn/evolution/evolve.py:evolve", "acetn/evolution/simple_update.py:SimpleUpdater.bond_update", "acetn/ipeps/ipeps.py:Ipeps.evolve"]}
{"id": "C84", "title": "Norms and phases of the tensors do not matter to renormalisation and measurement", "statement": "Multiply every site tensor by any non-zero complex number and every corner and edge tensor by any positive number, all chosen independently. Renormalisation then fails with the same exception or succeeds in both cases with the same random state; after at least one step the corner and edge tensors are exactly equal, not only up to factors. The same holds when only the double layers (sums over the physical index of A times conj(A)) agree up to a positive factor at each site. Any session of renormalise, measure and set-boundary-dimension calls returns the same dictionaries or raises the same exception.", "quantifier": "all unit cells, bond, physical and boundary dimensions, networks that fit, factors, models, projector types, SVD types and configurations, all call sequences without evolve", "why_tests_cant": "It compares two arbitrary networks with arbitrary factors through arbitrarily long sessions; in floating point the results agree only up to rounding, and division by a zero norm has to happen in both runs or in neither.", "anchors": ["acetn/renormalization/directional_mover.py:328", "acetn/renormalization/projectors.py:47", "acetn/measurement/measure.py:5", "acetn/ipeps/ipeps.py:92"]}
{"id": "C85", "title": "A model without interactions is evolved exactly", "statement": "Take a model with one-site terms only (its two-site operators are zero). In a session of set-boundary-dimension, renormalise, evolve (simple or full update) and measure calls with bond dimension 1, every measurement reports the expectation values of the product state whose vector at each site is exp(-tau q/4 h) applied to the initial vector, where tau is the total imaginary time (sum of dtau times steps over the evolve calls so far), h the term of the site and q the number of its neighbours that have a term, less one for each direction in which the cell is one site wide. So with at least two sites in both directions and a term everywhere the field is applied exactly, with no error in the step size; in cells one site wide a quarter of it is lost per such direction. Such sessions raise no exception while the vectors stay non-zero.", "quantifier": "all unit cells, physical and boundary dimensions, one-site terms, step sizes, numbers of steps, call sequences, orders of the bond list and stale gate tables, models measured, random draws and library results meeting their specification; matrix exponentials obeying exp(0)=1, exp((a+b)h)=exp(ah)exp(bh) and exp of a Kronecker sum = Kronecker product on the terms of the model", "why_tests_cant": "Tests compare energies at one step size within tolerances; that there is no step-size error at all, for any term and any history of calls, is a statement about all of them, and the missing quarter in one-wide cells does not show up in 2x2 tests.", "anchors": ["acetn/evolution/gate.py:Gate.build_two_site_gates", "acetn/evolution/gate.py:Gate.calculate_gate", "acetn/evolution/evolve.py:evolve", "acetn/ipeps/ipeps.py:Ipeps.evolve", "acetn/measurement/measure.py:measure"]}
{"id": "C86", "title": "Without interactions simple updates evolve the whole state exactly", "statement": "Take a model with one-site terms only, a unit cell with at least two sites in each direction and any finite periodic lattice covering it. After an evolve call with simple updates in which no weight below the cutoff belongs to an occurring bond state, the amplitudes of the whole state are, up to one positive factor, the former amplitudes multiplied at every lattice point by exp(-dtau steps q/4 h) of the term h there (q: number of neighbours with a term). This holds for entangled states of any bond dimension and any step size. With bond dimension 1 no weight is ever cut.", "quantifier": "all covers of the unit cell, bond dimensions, site tensors, one-site terms, step sizes, numbers of steps, boundary dimensions, random draws and library results meeting their specification; matrix exponentials obeying their laws on the terms of the model", "why_tests_cant": "It concerns all amplitudes of arbitrarily large lattices, all entangled states and all step sizes.", "anchors": ["acetn/evolution/gate.py:Gate.build_two_site_gates", "acetn/evolution/evolve.py:evolve", "acetn/evolution/simple_update.py:SimpleUpdater.bond_update", "acetn/ipeps/ipeps.py:Ipeps.evolve"]}
{"id": "C87", "title": "A small enough weight cutoff never spoils a simple update", "statement": "lambda_tensors.strip divides by weights clamped from below at a cutoff. For every initial state, table of gates and number of steps there is a positive bound such that with any cutoff below it the clamp does no harm: whenever the bond dimension suffices for what each gate makes of its pair, evolving with simple updates multiplies the amplitudes of the whole state, on any finite periodic lattice covering the unit cell, by the gates of the schedule up to one positive factor; and none of the updates divides by a zero norm unless the gates turn the whole state into zero. For gates that act on the two sites separately, and for models with one-site terms only, the bond dimension always suffices, so those are evolved exactly in every bond dimension. With a fixed cutoff the same holds as long as every weight met is zero or not below it.", "quantifier": "all covers of unit cells with at least two sites in each direction, bond and physical dimensions, site tensors, gates, numbers of steps, cutoffs below the bound, random draws and library results meeting their specification", "why_tests_cant": "The bound must work for all smaller cutoffs, and the point at issue is states in which a weight is exactly zero, where strip divides zero by the cutoff; generic test states never have such weights, and rounding hides the difference.", "anchors": ["acetn/evolution/lambda_tensors.py:LambdaTensors.strip", "acetn/evolution/lambda_tensors.py:LambdaTensors.absorb", "acetn/evolution/simple_update.py:SimpleUpdater.bond_update", "acetn/evolution/evolve.py:evolve"]}
{"id": "C88", "title": "Classical models are evolved exactly by simple updates", "statement": "Let each leg of a site see the physical state only through a label, a function of the physical state. Call a site tensor of copy form if for each physical state it is a number times a product of one vector per leg that depends on the label only; product states, the GHZ state and thermal states of classical models are made of such tensors. Suppose all gates are diagonal, their entries depend on the labels at the two ends up to factors for each end, and at one end of each bond there are no more labels than bond states; with the physical state itself as label this says that the bond dimension is at least the physical dimension. Then simple updates keep tensors in copy form, with any cutoff. If moreover the weight cutoff is small enough, an evolution multiplies the amplitude of every configuration of any finite periodic lattice covering the unit cell by the product of the gate entries over all bonds of the lattice, once per step, up to one positive factor, regardless of the order of the bonds. So for a model whose one- and two-site terms are diagonal the result is the exact exponential of the energy of the configuration times the total imaginary time, without a time-step error; the one-site terms count in full where all sites have one and with a quarter per neighbour that has one otherwise. The updates do not fail if some configuration has a non-zero amplitude and weight.", "quantifier": "all covers of unit cells with at least two sites in each direction, physical and bond dimensions, labels, site tensors of copy form, diagonal gates or models, time steps, numbers of steps, cutoffs below the bound, random draws and library results meeting their specification", "why_tests_cant": "The claim is about all configurations of lattices of every size and all numbers of steps at once; a test would contract one small lattice and could not tell an exact evolution from one with a small time-step error.", "anchors": ["acetn/evolution/simple_update.py:SimpleUpdater.bond_update", "acetn/evolution/lambda_tensors.py:LambdaTensors.absorb", "acetn/evolution/lambda_tensors.py:LambdaTensors.strip", "acetn/evolution/gate.py:Gate", "acetn/evolution/evolve.py:evolve"]}
{"id": "C89", "title": "The Ising samples are the Ising models of their lattices, and are evolved exactly without a field", "statement": "The Hamiltonians of the Ising model of the library and of samples 03, 05 and 06 are those of the Ising model on the square, honeycomb and kagome lattice: on any finite periodic lattice covering the unit cell, the energy of a configuration without a field is -jz times the sum over nearest neighbours of the product of their spins, each bond counted once, where in the honeycomb sample every spin A has exactly three neighbours B and in the kagome sample the bonds form triangles that share corners. With a field hx the one-site terms flip each spin of the site with -hx. The term of a bond is the same from either end. Without a field, simple updates from tensors of copy form, whose legs see only the spins that take part in the bonds, evolve these models exactly for any time step and number of steps if the cutoff is small enough, and bond dimension 2 suffices although a site has 4 or 8 states. They do not fail if some amplitude is not zero.", "quantifier": "all couplings and fields, real or complex operators, unit cells with at least two sites in each direction, covers of them, bond dimensions of at least 2, time steps, numbers of steps, tensors of copy form, cutoffs below the bound, library results meeting their specification", "why_tests_cant": "A wrong operator order or direction in a sample still runs and gives a plausible energy of another lattice; a test sees one size and set of parameters, and cannot exclude a time-step error.", "anchors": ["samples/03_custom_model.py:CustomModel.two_site_hamiltonian", "samples/05_honeycomb_ising.py:HoneycombIsingModel.one_site_hamiltonian", "samples/05_honeycomb_ising.py:HoneycombIsingModel.two_site_hamiltonian", "samples/06_kagome_ising.py:KagomeIsingModel.one_site_hamiltonian", "samples/06_kagome_ising.py:KagomeIsingModel.two_site_hamiltonian", "acetn/model/pauli_matrix.py:PauliMatrix.__mul__", "acetn/evolution/simple_update.py:SimpleUpdater.bond_update"]}
{"id": "C90", "title": "Full updates that lose nothing act on the whole state", "statement": "Take the full update with als_epsilon = 0, a positive cutoff for the norm tensor and, with gauge fixing, a tolerance below the one that cutoff guarantees. If all tensors and gates are real and no gate asks more of a bond than it can carry, then an evolution that ends multiplies the amplitudes of the whole state, on every finite periodic lattice covering the unit cell, by the gates of its schedule, one bond after the other at all its copies, up to one positive factor, unless those gates send the state to zero. Tensors stay real through updates and renormalisations, and fresh networks are real. Gates that act on the two sites separately never ask too much, whatever the bond dimension and the boundary tensors. With bond dimension 1 and the pseudoinverse such an evolution does not fail. The quality of the boundary tensors plays no part: a truncated or unconverged environment does not spoil an update that loses nothing.", "quantifier": "all unit cells with at least two sites in each direction, lattices covering them, bond, physical and boundary dimensions, real site and boundary tensors, real gates, numbers of steps, projector types and solver settings as stated, random draws and library results meeting their specification", "why_tests_cant": "The claim ties the local least-squares update to amplitudes of lattices of every size and to all environments, including bad ones; a test would contract one small lattice with one environment.", "anchors": ["acetn/evolution/fast_full_update.py:FastFullUpdater.bond_update", "acetn/evolution/full_update.py:FullUpdater.tensor_update", "acetn/evolution/full_update.py:positive_approx", "acetn/evolution/als_solver.py:ALSSolver.solve", "acetn/evolution/evolve.py:evolve"]}
{"id": "C91", "title": "Classical models are evolved exactly by full updates", "statement": "Take the full update with als_epsilon = 0, a positive cutoff for the norm tensor and, with gauge fixing, a tolerance below the one that cutoff guarantees. Let all tensors be real and of copy form, meaning that each leg of a site tensor sees only a label of the physical state, and let all gates be real and diagonal, their interaction depend on no more than these labels, and the labels at one end of a bond be no more than the bond dimension. Then an evolution that ends keeps the copy form and multiplies the amplitude of every configuration of the whole lattice, on every finite periodic lattice covering the unit cell, by the weight of the configuration, once per step, up to one positive factor for the whole state, provided some configuration with a non-zero amplitude has a non-zero weight. For a model of commuting diagonal terms the factor is the exponential of minus dtau times the number of steps times the energy: there is no Trotter error and no truncation error. With the pseudoinverse no such bond update fails. The Ising models of the library and the samples without a field, on the square, honeycomb and Kagome lattices, are cases of this. The boundary tensors and the boundary dimension do not enter.", "quantifier": "all unit cells with at least two sites in each direction, lattices covering them, bond, physical and boundary dimensions, real copy-form site tensors, real boundary tensors, real diagonal gates and models as stated, numbers of steps, solver settings as stated, random draws and library results meeting their specification", "why_tests_cant": "The claim compares the least-squares update inside an arbitrary environment with the exact imaginary-time evolution on lattices of every size; a test contracts one small lattice with one environment and a tolerance.", "anchors": ["acetn/evolution/fast_full_update.py:FastFullUpdater.bond_update", "acetn/evolution/full_update.py:FullUpdater.tensor_update", "acetn/evolution/evolve.py:evolve", "acetn/evolution/gate.py:Gate", "samples/03_custom_model.py:CustomModel.two_site_hamiltonian", "samples/05_honeycomb_ising.py:HoneycombIsingModel.two_site_hamiltonian", "samples/06_kagome_ising.py:KagomeIsingModel.two_site_hamiltonian"]}
{"id": "C92", "title": "Simple and full updates agree when neither loses anything", "statement": "Full updates (als_epsilon = 0, a positive cutoff for the norm tensor, and with gauge fixing a tolerance below the one that cutoff guarantees) evolve a real non-zero state under a model of real one-site terms exactly: an evolution that ends multiplies the amplitudes of the whole lattice by the exponentials of the terms for the total imaginary time, up to a positive factor, whatever the bond dimension, the time step and the boundary tensors; with bond dimension 1 and the pseudoinverse it does not fail. Consequently simple and full updates agree whenever neither is asked for more than its bonds can carry: from networks that describe the same state, with the same gates and bond order, simple updates with a small enough weight cutoff and full updates end in the same state up to a positive factor, though the two runs may use different bond dimensions, projectors and settings. Under a model without interactions, and under a real model with diagonal terms from states of copy form, they agree for all orders of the bonds and all time steps with the same total imaginary time.", "quantifier": "all unit cells with at least two sites in each direction, lattices covering them, pairs of configurations of the same lattice, real states and gates for the full update, numbers of steps, time steps with equal totals, library results meeting their specification", "why_tests_cant": "samples/07_simple_update.py compares the two update types for one model at ten parameters within a tolerance; the claim is equality of whole states for all models of the class, all lattices and all settings.", "anchors": ["samples/07_simple_update.py:run_evolution", "acetn/evolution/simple_update.py:SimpleUpdater.bond_update", "acetn/evolution/fast_full_update.py:FastFullUpdater.bond_update", "acetn/evolution/evolve.py:create_tensor_updater", "acetn/evolution/evolve.py:evolve"]}
{"id": "C93", "title": "Symmetries and conserved quantities survive evolutions that lose nothing", "statement": "Take a product of operators, one per site of the lattice, each of which permutes the local states and multiplies them by numbers. If it commutes with every term of a model, it commutes with the gates made from the model and with the action of any sequence of them on the amplitudes of the whole lattice, and a state with an eigenvalue of it keeps this eigenvalue: through simple updates with a small enough weight cutoff and through full updates of real tensors with real gates, as long as the updates are not asked for more than the bonds can carry. In particular a total charge that the model conserves is conserved. The Heisenberg model is symmetric under turning all spins over and conserves the number of spins that point down; the Ising models of the library and of the square, honeycomb and Kagome samples are symmetric under turning all spins over in any transverse field; the compass sample conserves the product of Z over every row of the lattice without a field in the x direction, and the product of X over every column without a field in the z direction.", "quantifier": "all unit cells with at least two sites in each direction, lattices covering them, bond, physical and boundary dimensions, symmetries of the stated kind, symmetric models and gates, couplings, time steps, numbers of steps, library results meeting their specification, matrix exponentials that commute with whatever commutes with their argument", "why_tests_cant": "A conserved quantity of the whole lattice is a statement about every amplitude of lattices of every size; a test measures a local expectation value with a truncated environment and a tolerance.", "anchors": ["acetn/evolution/simple_update.py:SimpleUpdater.bond_update", "acetn/evolution/fast_full_update.py:FastFullUpdater.bond_update", "acetn/evolution/evolve.py:evolve", "acetn/evolution/gate.py:Gate", "acetn/model/models/heisenberg.py:HeisenbergModel.two_site_hamiltonian", "acetn/model/models/ising.py:IsingModel.two_site_hamiltonian", "samples/03_custom_model.py:CustomModel.two_site_hamiltonian", "samples/04_compass_model.py:CompassModel.two_site_hamiltonian", "samples/05_honeycomb_ising.py:HoneycombIsingModel.two_site_hamiltonian", "samples/06_kagome_ising.py:KagomeIsingModel.two_site_hamiltonian"]}
{"id": "C94", "title": "Which evolve calls are refused, and what a refused call leaves behind", "statement": "An evolve call with a dtau that is no number, or with a model that has no parameters, raises before any numerical work; on a network that was initialised it changes nothing, but on one that was not it leaves the product state of the refused call's model, and every later evolve with any model starts from that state instead of its own model's product state. A call whose gates cannot be built, whose update type is unknown or whose number of steps is no integer raises after the first renormalisation and leaves exactly what (initialising and) renormalize would leave. With a complex dtype and update type simple, every call with at least one step raises RuntimeError at the first bond, for every unit cell and bond dimension. Simple updates with a real dtype are never refused for the types of the tensors and keep them real. Every other call succeeds if the renormalisations and updates do.", "quantifier": "all process states, networks, models, initial states, renormalisations and updates, numbers of steps, unit cells and orders of the bonds", "why_tests_cant": "What a failed call leaves behind depends on the whole history of the process; the tests look at calls that succeed.", "anchors": ["acetn/ipeps/ipeps.py:Ipeps.evolve", "acetn/evolution/evolve.py:evolve", "acetn/evolution/evolve.py:create_tensor_updater", "acetn/utils/logger.py:log_evolve_start_message", "acetn/evolution/lambda_tensors.py:LambdaTensors.strip", "acetn/evolution/simple_update.py:SimpleUpdater.bond_update"]}
{"id": "C95", "title": "Evolving a classical model never raises its energy", "statement": "For a model whose terms are all diagonal and real, a nonnegative time step, and states that simple or full updates represent without loss (C88, C91), the energy expectation value of the whole-lattice state after Ipeps.evolve is at most its value before, for every number of steps, however large the time step. It is strictly smaller as soon as two configurations of different energy, which the exponential separates, occur in the state. Moreover, the share of the norm carried by the configurations below any energy threshold does not fall. In particular this holds for the Ising models without field on the square, honeycomb and kagome lattices of the library and the samples.", "quantifier": "all real diagonal models, time steps >= 0, numbers of steps, unit cells with nx, ny >= 2, periodic lattices of any size tiled by them, initial states of the classical form, boundary tensors and orders of the bonds", "why_tests_cant": "The tests check energies of a few models to a few digits after many small steps; monotonicity for all states, time steps and lattice sizes cannot be sampled.", "anchors": ["acetn/ipeps/ipeps.py:Ipeps.evolve", "acetn/evolution/evolve.py:evolve", "acetn/evolution/simple_update.py:SimpleUpdater.bond_update", "acetn/evolution/fast_full_update.py:FastFullUpdater.bond_update", "acetn/evolution/gate.py:Gate", "samples/03_custom_model.py:CustomModel.two_site_hamiltonian", "samples/05_honeycomb_ising.py:HoneycombIsingModel.two_site_hamiltonian", "samples/06_kagome_ising.py:KagomeIsingModel.two_site_hamiltonian"]}
{"id": "C96", "title": "What the shipped models report lies between the values their operators allow", "statement": "For the models of the library and of the samples, whenever the density matrices handed to Ipeps.measure are positive with nonzero trace, the call returns every observable of the model and Energy as real numbers within the bounds of the operators: magnetisations sx and sz within [-1, 1] (staggered for Heisenberg), compass phi within [-1, 1] and chi within [-2, 2], honeycomb mag_x and mag_z within [-2, 2] because they are sums over the two spins of a site, kagome mx and mz within [-1, 1] because they are averages over three, and Energy per site within |hx| + 2|jz| (Ising), 3|J|/2 (Heisenberg), |hx| + |hz| + |jx| + |jz| (compass), 3|jz| + 2|hx| (honeycomb), 6|jz| + 3|hx| (kagome). The totals of the honeycomb and kagome samples are exactly the sums and averages of the reported sublattice values. With bond dimension 1 the bounds hold for every session without any assumption on density matrices. Without positivity they can fail: boundary tensors of legal shapes make the library report sz = 3.", "quantifier": "all couplings (complex numbers included), unit cells with nx, ny >= 1, orders of the bonds, positive density matrices with nonzero trace; for bond dimension 1 all sequences of evolve, measure and setting calls", "why_tests_cant": "Tests compare a few measured values with references for a few couplings; bounds for all states, couplings and cells, and the relation between sublattice and total values, quantify over infinitely many density matrices.", "anchors": ["acetn/measurement/measure.py:measure", "acetn/model/models/ising.py:IsingModel.one_site_observables", "acetn/model/models/heisenberg.py:HeisenbergModel.one_site_observables", "acetn/model/pauli_matrix.py:PauliMatrix", "samples/04_compass_model.py:CompassModel.two_site_observables", "samples/05_honeycomb_ising.py:HoneycombIsingModel.one_site_observables", "samples/06_kagome_ising.py:KagomeIsingModel.one_site_observables"]}
{"id": "C97", "title": "States that are common eigenstates of the terms of a model do not change under evolution", "statement": "If every term of the model acts on the state of the infinite lattice as a number, then so does every gate that Ipeps.evolve builds, namely as the exponential of -dtau times the energy of the bond, and evolve leaves the state as it is, up to its norm and sign: with simple updates whose bonds can carry the result, with full updates that lose nothing, and for states that are a multiple of one vector per site with simple updates of any kind, which also succeed. So all spins of the Heisenberg model along one vector, whichever it is, stay along it for every coupling and time step, and spins along or against x stay so in the compass sample with couplings and field in the x direction only. The Neel state is not an eigenstate of the Heisenberg terms.", "quantifier": "all unit cells with nx, ny >= 2, all lattices they cover, bond dimensions, models, states, vectors per site, time steps, numbers of steps and orders of the bonds", "why_tests_cant": "A test evolves one ferromagnetic state for a few steps at one time step and compares numbers up to a tolerance; the claim is about all eigenstates, all vectors, couplings, lattices and numbers of steps.", "anchors": ["acetn/evolution/evolve.py:evolve", "acetn/evolution/simple_update.py:SimpleUpdater.bond_update", "acetn/evolution/fast_full_update.py:FastFullUpdater.bond_update", "acetn/evolution/gate.py:Gate", "acetn/model/models/heisenberg.py:HeisenbergModel.two_site_hamiltonian", "samples/04_compass_model.py:CompassModel.two_site_hamiltonian"]}
{"id": "C98", "title": "Spins that are not entangled are reported as they point", "statement": "If the state is a product of spins, every value Ipeps.measure reports for the models of the library and the samples is the average over the sites (or bonds) of what the components of the spins say: sx and sz of the Ising and compass models are the averages of the x and z components, those of the Heisenberg model carry the sign (-1)^(x+y) of the site, phi of the compass sample is half the average of x x to the right minus z z upwards, chi half the average of the antisymmetric products x z - z x over both directions, the honeycomb and kagome samples report the components of the spins A, B (and C) of a site in this order, and Energy is the average per site of the field terms and of the products of components over the bonds, for the samples with the bonds between the right sublattices. With bond dimension 1 this holds after every session, for the spins held by the tensors of the network.", "quantifier": "all real couplings, unit cells with nx, ny >= 1, product states, orders of the bonds, real and complex tensors; for bond dimension 1 all sequences of evolve, measure and setting calls", "why_tests_cant": "Tests check a few states of a few models, mostly energies; signs and sublattice order for all directions of the spins, all cells and couplings are infinitely many cases, and a wrong sign of an observable leaves energies untouched.", "anchors": ["acetn/measurement/measure.py:measure", "acetn/model/pauli_matrix.py:PauliMatrix", "acetn/model/models/ising.py:IsingModel.one_site_observables", "acetn/model/models/heisenberg.py:HeisenbergModel.one_site_observables", "samples/04_compass_model.py:CompassModel.two_site_observables", "samples/05_honeycomb_ising.py:HoneycombIsingModel.one_site_observables", "samples/06_kagome_ising.py:KagomeIsingModel.one_site_observables"]}
{"id": "C99", "title": "What the import of the package makes of its surroundings", "statement": "Importing acetn.ipeps succeeds exactly if ACETN_LOG_LEVEL is unset or is DEBUG, INFO, WARNING, ERROR or CRITICAL in any mixture of capitals and small letters (no blanks); every other value raises TypeError and leaves no handler behind. Over any number of attempts in one process the first good value settles the level, unset meaning INFO, and the first attempt of all settles whether the cuTENSOR extension counts as available: an extension that appears between a refused import and its repetition is not seen. There is never more than one handler, so no message is written twice, and no log file, whatever the arguments of Logger. Debug mode is on exactly if the settling value spells DEBUG; an evolution then writes 4 lines per full ten steps and otherwise none, and its tensors and bond order do not depend on it. A configuration with backend 'cutensor' only exists in a process where the compiled module is loaded.", "quantifier": "all values of the variable, all sequences of import attempts with changing surroundings, all numbers of steps, bond lists and bond updates, all user dictionaries", "why_tests_cant": "A test imports the package once per process with one value of the variable; the statement is about all strings and all histories of failed and repeated imports.", "anchors": ["acetn/utils/logger.py:Logger", "acetn/evolution/_extensions/__init__.py:load_cutensor_extension", "acetn/evolution/evolve.py:evolve", "acetn/evolution/als_solver.py:ALSSolver.solve_cutensor", "acetn/ipeps/ipeps_config.py:IpepsConfig.validate_backend"]}
{"id": "C100", "title": "Without interactions the reported energy never rises", "statement": "Take bond dimension 1 and a model whose one-site terms are Hermitian and whose two-site terms are zero. Measure the energy, then do anything: any number of evolutions with any step sizes that are not negative, any numbers of steps and any orders of the bonds, renormalisations, changes of the boundary dimension and further measurements; then measure again. The second energy is at most the first. This holds with the simple and the full update, on every cell, also on cells one site wide, where C85 shows that the evolution is not that of the full term. If moreover the vector at some site is not an eigenvector of the term of that site, and the site has a neighbour with a term, then one evolution of at least one step with a positive step size makes the energy strictly smaller.", "quantifier": "all Hermitian one-site terms and physical dimensions, all cells, all initial vectors, all sequences of requests between the two measurements, all step sizes >= 0, both updates", "why_tests_cant": "A test runs one model with one step size for some steps and sees the energy fall; the statement is about all Hermitian terms, all states and all sequences of calls.", "anchors": ["acetn/ipeps/ipeps.py:Ipeps.evolve", "acetn/ipeps/ipeps.py:Ipeps.measure", "acetn/evolution/gate.py:Gate", "acetn/evolution/evolve.py:evolve", "acetn/measurement/measure.py:measure"]}
