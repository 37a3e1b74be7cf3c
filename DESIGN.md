# Formal model of ace-tn in Rocq (Coq 8.16.1)

This file says what is modelled, how each property of `properties.jsonl` is
expressed and proved, and what has to be trusted.  `/repo` was read as text and
is unchanged.

## 1. Shape of the model

Two layers.

**Layer A - control flow, tables, schedules (plain Coq + `lia`).**  Lattice and
bond lists, the evolution loop, the gate table, the process state (shared
tensor table, configuration dictionaries, model registry, files), the CTMRG
sweep and the directional moves, the distributed moves, the ALS loop control,
configuration, measurement dictionaries, C++ strides.  Numerical kernels appear
as arbitrary functions (Section variables, generalised over in every theorem),
so a theorem holds for every kernel.

**Layer B - tensors (mathcomp `ssreflect`/`algebra`, no axioms).**  Scalars are
any `C : numClosedFieldType` (algebraically closed field with conjugation and
order on its reals, e.g. the algebraic numbers `algC`).  A real dtype is the
sub-case where all entries are real.  A tensor is a shape and a function from
index lists to scalars.  `einsum` is one generic checked function that parses
the very specification strings of the source (`"ab,bcrR->acrR"`) and returns an
error when labels and dimensions do not fit.  `reshape`, `permute`, `conj`,
`norm`, `abs().max()`, `kron`, slicing, `@` are defined once.  The functions of
the source are then written line by line in an error monad.

LAPACK routines (`svd`, `qr`, `eigh`, `pinv`, `cholesky`/`solve`,
`matrix_exp`) and `torch.rand*` are *not* modelled as algorithms.  Their
results are universally quantified values that satisfy the mathematical
specification of the routine (`is_svd A U s Vh`, `is_qr A Q R`, ...); theorems
are for every result satisfying it.

## 2. What is modelled, file by file

| source (acetn/...) | model | not modelled |
|---|---|---|
| ipeps/tensor_network.py, bond.py | `Lattice.v` (sites, bonds), `Neel.v` (`bond_direction` names) | `__getitem__` sugar |
| ipeps/site_tensor.py | `Renorm.v` (initial tensors), `Rdm.v` (`bond_permute`), `Process.v` (`to`, casts) | random noise values are arbitrary arguments |
| ipeps/ipeps.py | `Process.v` (one process, any history of operations), `Session.v` (one network, with the numerical kernels) | printing |
| ipeps/ipeps_config.py | `Config.v` | dataclass boilerplate |
| model/model.py, model_factory.py | `Neel.v`, `Process.v` (registry), `Gate.v` (which operators a model returns) | |
| model/pauli_matrix.py, models/*.py | `Pauli.v` | device moves |
| evolution/gate.py | `Gate.v` (tables, aliasing), `GateSum.v` (generators) | `matrix_exp` is an arbitrary function (C85, C86: obeying the exponential laws on the terms of the model) |
| evolution/evolve.py | `Evolve.v`, `Front.v` (order of the steps, what raises) | progress bar |
| evolution/tensor_update.py | `FullUpdate.v`, `Als.v` | |
| evolution/full_update.py | `FullUpdate.v` (norm tensor), `Als.v` (positive_approx, gauge_fix, updater) | |
| evolution/fast_full_update.py | `Dist.v` (absorbing a bond) | |
| evolution/als_solver.py | `Als.v` (contractions, solver, loop), `AlsLoop.v` (loop control) | |
| evolution/simple_update.py, lambda_tensors.py | `Als.v`, `Lambda.v`, `Front.v` (real and complex types) | precision of the numbers |
| renormalization/* | `Mover.v`, `Dist.v`, `Renorm.v` | |
| linalg/* | `Rsvd.v` | |
| measurement/rdm.py, measure.py | `Rdm.v`, `Measure.v` | printed text |
| utils/benchmarking.py | `Runtime.v` | NVTX markers |
| utils/distributed.py | `Group.v` (set-up, finalisation, devices of a gather), collectives' data in `Dist.v` | rendezvous, error recording |
| utils/logger.py | `Startup.v` (Logger), `Front.v` (what log_evolve_start_message raises) | message texts, handlers of the root logger |
| evolution/_extensions/__init__.py | `Startup.v` (outcome of the import of the extension, retries) | the dynamic loader |
| csrc/evolution/als_solve.cpp, als_tensors.cpp/.h | `AlsLoop.v` (loop control), `Cutensor.v` (buffers, plans, update, loop) | the conversion of tolerance and epsilon to float32, CUDA streams |
| csrc/linalg/contraction.h, contraction.cpp | `Strides.v` (strides), `Cutensor.v` (expression parser, plan creation, contraction) | workspace, handles, algorithm selection |
| csrc/linalg/cholesky_solve.h | `Cutensor.v` | workspace, handles |
| ../samples/ | Samples.v (Hamiltonians of 03, 04, 05 and 06), Observables.v (their observables, and those of models/) | main functions (calls of the library) |
| setup.py, docs/, benchmarking/ | - | not part of the library |

Every definition cites the lines it renders.  Definitions that model the
program live in the files of this table; specifications that theorems are
stated with live in the property files `P01`-`P52` and in `Fits.v` (boundary
legs fit), `Linalg.v` (what LAPACK routines promise), `Psd.v`, `Eckart.v`.

### Simplifications

* Exact field arithmetic: no rounding, overflow, NaN.  Division by a zero norm
  (or by a zero singular value, or by `abs().max()` of a zero or empty tensor) is
  the error value `ZeroNorm`; the program would produce NaN and continue.
* torch's einsum broadcasts size-1 dimensions; the model demands equal
  dimensions, so "no shape error in the model" is the stronger statement.
  Memory layout is not modelled: `view` is `reshape`.
* `torch.empty` memory is an arbitrary argument (theorems hold for any contents).
* dtype/device conversion is an abstract function `cast` with the property that
  casting twice to the same dtype is casting once.  Mixing of dtypes inside the
  numerical kernels is not modelled.
* LAPACK oracles are functions of the matrix.  `qr`, `svd`, `eigh`, `cholesky`,
  `pinv` are universally quantified together with their specification
  (`Linalg.v`); `Spectral.v` and `EighChol.v` construct functions that meet
  them, so no theorem is vacuous.  `eigh` and `cholesky` read the lower
  triangle only and may fail.  `pinv` has its cutoff `rtol` as a parameter.
* The `while` loop of `positive_approx` runs on fuel; C44 proves one shift
  suffices.  `gauge_fix` in the model also returns the gauges it computed.
* tqdm, logging text, NVTX and wall-clock time are omitted, except that the timers
  accumulated in `evolve` are modelled as numbers.
* Python integers: lattice sizes and dimensions are natural numbers.
* cuTENSOR and cuSOLVER are modelled by their specification.  A contraction
  reads its operands through extents and strides, sums over the labels absent
  from the output and writes the output's addresses only; plan creation fails
  for a repeated label, an output label of neither operand and disagreeing
  extents (`library_accepts`).  `potrf` and `potrs` are functions with
  `potrf_spec`/`potrs_spec`; what `potrf` leaves behind when it fails is
  arbitrary.  Memory is a function from addresses to numbers.
* Distributed collectives are modelled synchronously: `all_gather` delivers
  every rank's value to every rank, `broadcast` delivers rank 0's value.  A rank
  raising an exception before a collective makes the whole step fail.
* In `Group.v` torch.distributed and CUDA are their specification:
  init_process_group succeeds for a rank in range, an NCCL collective needs
  tensors on pairwise different GPUs, a gloo all_gather needs host tensors,
  `.to(n)` needs CUDA device n, "cuda" without index is the current device.
* `Session.v` composes the kernels of the other files into the calls of one
  network outside a process group: a session is a list of calls, ends at the
  first exception, and a zero norm counts as one.  Gates and models are arguments
  of the calls (how they are built and looked up is `Gate.v`, `Process.v`).

## 3. Trusted base

* Coq 8.16.1's kernel (and `coqchk`), the mathcomp library's proofs as compiled
  .vo files (checked by the same kernel).
* `Print Assumptions` is run for every theorem listed in MANIFEST.json, in the
  file where the theorem is stated; every one prints `Closed under the global
  context` (no axioms at all, not even standard-library ones).  `coqchk -o`
  additionally lists 38 fields of module types that ssreflect and mathcomp use
  to seal definitions (`bigop.BigOp.bigopE`, `finset.SetDef.finset`,
  `fintype.CardDef.card`, `perm.PermDef.permE`, `ssrunder.Under_rel.*`, ...).
  Each is implemented by a definition and a proof in the library itself; no
  theorem here rests on one as an axiom.
* Scalars are an arbitrary `numClosedFieldType`; mathcomp's `algC` is one, so
  the quantification is not empty.
* The reading of the Python/C++ source into Gallina (each definition cites file
  and lines) and the simplifications above.
* `torch.matrix_exp` is an arbitrary matrix function.  Theorems that need more
  name it as a hypothesis: `exp_laws` (P36: terms on different sites factor),
  `exp_diag` and `exponential` (P39: diagonal matrices), `growing` (P46:
  monotone), `exp_commutes` (P44: what commutes with a matrix commutes with its
  exponential), `exp_eigen` (P48: eigenvectors stay eigenvectors),
  `cooling_law` (P51: on the eigenvectors of a Hermitian term it is a positive
  and growing function of the eigenvalue), `strict_law` (P52: strictly growing).  The exponential has all of them; the examples use functions that provably do.
* Where the expected behaviour is false of the program, the property states the
  behaviour it really has, and a theorem ending in `_refuted` gives the witness
  against the expectation.

## 4. Plan per property

* **C01** Every lattice link is a bond exactly once - `Lattice.v`: the two loops as `flat_map`s. Proved: the list of all (site, direction) bond ends is a permutation of sites x {0,1,2,3}; bonds join torus neighbours; lengths; NoDup.
* **C02** Wrapping one-site terms into bond gates conserves the Hamiltonian - From C01: each site occurs four times among bond ends. Stated for any additive embedding of one- and two-site operators in an Abelian group.
* **C03** One-site terms are dropped when an end has none - Same sums with optional one-site terms; the exact deficit is proved, plus a concrete witness where energy and generator differ.
* **C04** Gates used by an evolution are those of its own model and time step - `Gate.v`: class-level dictionary as process state; construction is a fold. Proved for every prior dictionary.
* **C05** Gate objects share one table - Same model, two constructions in sequence.
* **C06** Building gates must not change the model's Hamiltonian - Heap of matrices with references; `+=` writes through the reference. Fresh allocation vs cached reference, both for all bond lists.
* **C07** Evolution schedule - `Evolve.v`: loop with in-place reverse, trace of updates; spec: alternating copies; palindrome lemma.
* **C08** Splitting an evolution into several calls - Composition lemma of the loop.
* **C09** Timing labels - Timers in the loop as numbers; proved that the reported figures are exchanged.
* **C10** Rotating the bond to canonical position and back loses nothing - `Tensor.v` permute; pointwise equality for all shapes.
* **C11** One CTMRG sweep refreshes the whole environment - `Mover.v`: table of C/E/A per site, abstract kernels. Write log of a step covers all (site, C/E, index).
* **C12** A directional move is a simultaneous update - Frame and simultaneous-update theorem for each move by induction over the rows, using disjointness of read and write sets.
* **C13** Renormalisation never fails on tensor shapes - `Shapes.v`: shape invariant (link-dimension map) for the real kernels in the einsum model; preserved by any move, so any sequence.
* **C14** Boundary dimension never exceeds chi after a sweep - Same invariant with the bound chi tracked per link.
* **C15** Number of kept boundary states - Count lemma on the list of singular values.
* **C16** When a distributed move runs through - `Dist.v`: ranks in lock step, unbound local variables and missing keys as errors; success iff arithmetic condition; arithmetic solved in closed form.
* **C17** Distributed move equals the sequential moves (half-system projectors) - Equality of final tables using read/write disjointness.
* **C18** All ranks stay identical - Induction over an arbitrary program of collective operations.
* **C19** Distributed move with full-system projectors differs from the sequential one - Characterisation lemma plus a concrete kernel witness.
* **C20** Projector pair is biorthogonal - Index-level algebra from `is_svd`.
* **C21** Untruncated projectors are exact - Same, with all discarded singular values zero.
* **C22** Full-system rsvd projector for complex tensors - Equality when entries are real; complex 1x1 witness otherwise.
* **C23** Randomised SVD returns an SVD of its projection - QR/SVD specs composed; matmul associativity for the fused variants.
* **C24** Products of Pauli operators have the right matrix - Induction over product trees; specification by entry-wise products of textbook 2x2 matrices.
* **C25** Pauli sums and products of sums - Linear lemmas; general sign formula; witness.
* **C26** In-place Pauli product - Case analysis; exact condition.
* **C27** Measured averages - Dictionary folds; result lookup equals specification averages.
* **C28** Measurement key errors and collisions - Exact error condition and collision witnesses.
* **C29** Measurement does not depend on the bond order - Permutation invariance of the folds.
* **C30** Expectation values are scale-invariant and correctly normalised - Multilinearity of the contraction.
* **C31** The one-site density matrix is the full environment contraction - Reflective normaliser for nested contractions (`TN.v`): program = one flat sum.
* **C32** The two-site density matrix is the full environment contraction, blocked or not - Same; block loop writes every entry once.
* **C33** Networks in one process are not independent - `Process.v`: one table in the process state; induction over operation histories.
* **C34** Save then load restores the state - File store in the process state; frame induction over histories.
* **C35** A saved file holds every network's sites - Same.
* **C36** When evolve re-initialises the state - Flag invariant over histories.
* **C37** Shared configuration dictionaries - References to dictionaries in the process state.
* **C38** Which model a network evolves with - Registry as process state; last-writer theorem over histories.
* **C39** ALS solver backends agree - `AlsLoop.v`: both loops over abstract kernels; equality for all inputs.
* **C40** ALS iteration bounds - Same model; `C40_solver` (`P23_Solver.v`) relates the run of the tensor solver to iterated sweeps.
* **C41** Each ALS half-step is an exact minimisation - `Als.v`: completing the square from the normal equations with the source's R and S contractions.
* **C42** Regularised ALS half-step - Same with the shift.
* **C43** ALS cost is the distance to the gate-applied state - Expansion of the quadratic form.
* **C44** Positive approximation terminates and is positive - Loop with fuel-free bound; spectral specification of eigh.
* **C45** Gauge fixing does not change the problem - Contraction algebra with inverse gauges.
* **C46** Balancing the reduced tensors keeps the two-site state - QR and SVD specs substituted in the contraction.
* **C47** Decomposing and recomposing site tensors is lossless - QR spec plus reshape arithmetic.
* **C48** Norm tensor and density matrix agree - Normaliser on both programs.
* **C49** Blocked norm tensor equals the unblocked one - Block loop as in C32.
* **C50** Absorbing and stripping weights - Pointwise; the exact ratio, and iff-condition for undoing (`P20_Simple.v`).
* **C51** Simple update truncation - Eckart-Young (`Eckart.v`): the kept state is a best approximation among all states with D bond states.
* **C52** Bond-weight bookkeeping - Table lemmas over the lattice model.
* **C53** Unit cells of width one - Write-order lemma.
* **C54** cuTENSOR strides - `Strides.v`: mixed-radix arithmetic.
* **C55** Absorbing an updated bond - Case analysis over directions with the lattice spec.
* **C56** Initial tensors - Direct from definitions of norm and reshape; in a session the i-th site gets the i-th draw and nothing else changes (`C56_draws`, `P31_Calls.v`).
* **C57** Configuration normalisation - Functional model of the dataclass; case analysis over all inputs.
* **C58** Built-in models - Pauli model.
* **C59** Neel initial state - Parity arithmetic on the torus.
* **C60** Runtime wrapper - Result-shape model.
* **C61** Simple-update weights do not survive a call - `Lambda.v`: updater object inside the evolve model; schedule split lemma and witness.
* **C62** Direction names of bonds - `Neel.v`: table plus the lattice specification.
* **C63** Transposed operators in measure() - Product states; exact value and a refuting witness (`P11_Measure.v`).
* **C64** A move absorbs the line into the boundary - Symbolic contraction of the move's three kernels; projector cuts inserted; lossless case from C21 (`P21_Absorb.v`).
* **C65** Simple update of a bond end to end - C47, C51, C50 composed through an isometric lift of the reduced problem; optimality over all pairs of site tensors (`P22_SimpleUpdate.v`).
* **C66** Initial guess of the ALS solver - Eckart-Young on the matrix of the target; the second tensor comes out conjugated (als_solver.py takes `V = Vh.mH` and does not conjugate back), which is harmless for real data and fatal for the product target of `C66_complex_guess_refuted` (`P23_Solver.v`).
* **C67** Full update of a bond - Composition of C44 (positive approximation), C45 (gauge), C66 (guess), C40/C41/C42 (sweeps) and C46 (balancing) over the model of `update_reduced_tensors`; the frame of the solver is related to the frame of the bond by the gauge matrices and their inverses. Realness of the decompositions (`real_svd`, `real_qr`, `real_eigh`) is a hypothesis of the real-data theorems and is met by the witnesses `some_full_svd`, `some_qr`, `some_eigh` (`P24_FullUpdate.v`).
* **C68** Distributed program = sequential program - Simulation over the list of operations from C17 and C55_same_network; the moves only read entries of the network, so pointwise equal networks stay pointwise equal (`P25_DistRun.v`).
* **C69** Full update of a bond, on the site tensors - Model: `full_bond_update` (rotation of the legs, `full_tensor_update`, rotation back, one-site gates). The norm tensor is shown to be the contraction of the ten boundary tensors seen through the two outer QR factors (`norm_pull`, checked as equality of tensor networks), so that distances of reduced tensors are distances of site tensors in the metric of the surroundings; C67 then lifts. Realness of the reduced data follows from real boundary tensors because einsum commutes with conjugation (`P26_SiteUpdate.v`).
* **C70** Contractions of the compiled backend - `Cutensor.v`: the parser of einsum expressions, the plan with extents, strides and conjugation flags, and the contraction on flat memory. Proof: parsing an expression gives back its labels, the row-major address of an index is its `ravel`, the summed labels are those of torch's einsum; so plan creation succeeds exactly if einsum does and the buffer holds its entries (`CutensorFacts.v`, `P27_Cutensor.v`).
* **C71** The compiled ALS solver returns what the torch one returns - Model: `als_solve_cutensor` (in-place buffers, plan cache, normal equations, `potrf`/`potrs`, loop). Proof: a simulation: after every sweep the buffers hold the tensors of the torch solver. The Cholesky solve needs a positive semi-definite norm tensor and a shift that is not negative (then both solve the same regular system); the pseudo-inverse needs nothing. For a real dtype the conjugation flags are off, and the simulation carries that all data stay real. `devInfo` is not checked: `C71_never_fails` shows that the compiled Cholesky solve never reports a failure, `C71_lost_failure_refuted` that this loses an error the torch backend raises.
* **C72** Joining and leaving the process group - `Group.v`: process state (group, current device, muted printing) and a list of networks; a history is a list of constructions and deletions. Proved by induction over the history from its end; the condition for joining (`joins`) and for leaving are stated without the model's set-up function.
* **C73** Where distributed networks live and when projectors can be gathered - Same model run once per rank; invariant: the group's backend follows the presence of GPUs, and in all-cuda histories the current device is the rank. Witness for the mixed history.
* **C74** A session never meets tensors that do not fit - `Session.v`: invariant (all tensors fit together, boundary legs at most c, the bond list is a permutation of the lattice's bonds, the boundary dimension is positive) kept by every call: C13/C14 for moves, C55 for absorbing a bond, C67/C69 for the full update, C65 with C52 for the simple update, C31/C32 with C27 for measuring, C56 for initialising. Errors are tracked exactly (`allowed`), termination is part of the statement (`P29_Session.v`).
* **C75** Full-update sessions keep the site tensors normalised - Same induction with the canonical form of C69: both updated tensors have norm one, moves do not write site tensors, initial tensors are normalised.
* **C76** With bond dimension 1 measurements are exact mean-field values - `Ring.v`: invariant `ring_ok` (a phase label on every boundary leg; every corner and edge is a positive multiple of the ratio of its two labels), kept by every move because the two projectors of a site are dual up to a positive factor; so the boundary of every density matrix is one positive number, which the normalisation divides out (`ProductFacts.v`), and C27 computes the averages. Not covered: full-system projectors with rsvd, whose conjugation error breaks duality for complex tensors.
* **C77** Product-state dynamics - simulation relation `product` between the session and a specification of four lines (`pstep`, `pevolve`, `pcall`): vectors agree up to a factor. One bond: every tensor of the ALS solver, gauge fixing and balancing stays on the ray of the updated vector (`update_ray`), for the simple update the closest state of C65 is the product itself (`simple_ray`). Success of simple-update sessions from C13's product-state run, C65 and C27.
* **C78** How the calls work together - laws of `session`, proved by induction over the call list; the boundary part from the invariant of C74 (`P31_Calls.v`).
* **C79** Weights of the simple update - specification `weighted_step` with a function from (site, direction) to vectors; simulation over the schedule with C52 (`C52_lookup`, `C52_update`) for the two tables.
* **C80** Simple updates are blind for the boundary - both sessions are reduced to their evolutions (`session_evolutions`), which by C79 read site tensors only.
* **C81** Physical basis - every kernel of the renormalisation is a congruence for equality of entries, and quarters and edges contain A only through its double layer (`Layer.v`); induction over moves and steps with the C13 shape invariant. Density matrices via C31/C32 and the network calculus of `TN.v`, traces by a sum lemma (`Basis.v`), sessions by induction (`P32_Basis.v`). Evolutions are left out: QR and SVD are oracles and need not be equivariant.
* **C82** Optimal projectors - `cut_fact` (from C20-C22) makes R1 P2 P1^T R2 the truncated SVD of the cut; the Eckart-Young theorem of `Eckart.v` is redone for rectangular matrices and for competitors given by their rank (`P33_Optimal.v`). The spec states singular values, kept number, loss and optimality without the model's helpers.
* **C83** Whole-state simple update - `Torus.v` defines amplitudes on any finite four-neighbour lattice with a covering map to the cell (spec side, no program helper); `psi_bond` isolates the two tensors of one bond copy by copy; C65 gives the two-site equation; `P34_State.v` folds it over the schedule of C46 inside `Session.evolve`. The renormalisations around it keep the site tensors. `torus_covers`: every a x c lattice of cells is a cover.
* **C84** Norms and phases - the congruences of `Layer.v` hold for tensors equal up to positive factors: every kernel output is divided by its norm or largest entry, so the factors cancel (`tdiv_norm_prop`, `tdiv_absmax_prop`). Relation kept along moves and steps; after a step all boundary tensors have norm 1 (C11), so proportional ones are equal (`P35_Norm.v`). Measurements by the scaling lemma behind C30.
* **C85** Field-only models - `model_gates` composes `make_gate`, `wrap`, `calculate_gate` and `reshape` and hands the table to `Session.evolve`. Its generator is a Kronecker sum scaled by 1/4 or zero (`generator_mx`), so the gate splits (C77) and the site gets one factor per acting bond; `FreeCount.v` counts the acting bonds of the schedule. `matrix_exp` is any function with `exp_laws` for the terms. Spec: `at_time`, `quarters`, `expected`.
* **C86** Field-only models on the whole state - operators acting point by point on amplitudes compose (`acts_comp`); each bond of the schedule of C83 acts as a dose of the exponential at both ends, counted as in C85. `exact` is the spec.
* **C87** Small weight cutoffs - the new tensors of an update are combinations of what the gate makes of the pair (`update_span`), so they vanish wherever a weight is zero and do not depend on the cutoff elsewhere (`update_near`); both facts are carried along the schedule, which makes the conditions of C83 on the weights automatic. A zero norm would mean that the gate annihilates the pair, hence the whole state (`step_nothing`). The weights themselves do not depend on a small cutoff.
* **C88** Classical models - with tensors of copy form a diagonal gate gives the pair a matrix of rank at most the number of labels at either end, so as many bond states suffice (`copy_within`), and by `update_span` the new tensors are of copy form again (`copy_update`); hence the conditions of C87 hold all along the schedule. Diagonal operators commute, so the schedule collapses to a power of one weight (`act_schedule_diag`), a product over the bonds of the lattice (`weight_bonds`). For a model the entries of the gates are exponentials of the bond energies with their share of the fields, which sum to the energy (`shared_energy`). Assumed of `torch.matrix_exp`: on a diagonal matrix it applies a function to the entries, which turns sums into products (on the set of numbers that occur). Initialisation adds noise, so such tensors come from assigned or loaded states.
* **C89** Sample models - an expression of Z and I (other letters only times zero, no Y) evaluates to a diagonal matrix with the product of the signs of the spins (`peval_diag`), so the samples without a field are classical models; their legs see one spin, so two bond states suffice even with four or eight states per site (`evolved_by`, from C88). The energies are re-indexed to sums over honeycomb bonds and kagome triangles. With a field the one-site terms are computed entry by entry for all pairs of states of a site; the two-site terms are given for all four directions and agree when a bond is read from its other end. The example takes a function that returns the integer of an integer (a floor) to have an exponential on the integers.
* **C90** Whole-state full update - real data stay real through CTMRG (`RealNet.v`: every kernel `yields` real tensors from real ones) and through a bond update (`RealUpd.v`), so C69's exact case applies at every bond of a session; `psi_bond` of C83 lifts it to amplitudes and the schedule is folded over `Session.evolve` (`P41_FullState.v`). The state is not zero after a step iff the gate's image of the pair is not zero (`goal_nonzero`: put a zero tensor at one end), so only the final state need be assumed non-zero. With bond dimension 1 non-zero amplitudes keep all site tensors non-zero, and `moves_one` gives the renormalisations. Complex data are out: there the initial guess of ALS is wrong (C66, C67).
* **C91** Classical models by full updates - C90's single-bond step also gives the pair state after the update and that the halves of the new bond are canonical (they come from a QR and an SVD). Diagonal gates on copy tensors span no more than the labels (`span_of`), so nothing is lost (`copy_bond_within`), and a canonical pair whose bond state is of copy form consists of copy tensors (`copy_canonical`, by the spans of the two halves); so the form survives the step and the schedule folds to the weight of the configuration as in C88. Nothing is assumed about boundary tensors but that they are real (`P42_ClassicalFull.v`). The labels of the Ising samples come from C89 (`ising_terms`). Only evolutions that end are described, except for single bond updates with the pseudoinverse, which do not fail; a renormalisation between them may fail on a zero boundary tensor.
* **C92** Simple against full updates - free models have product gates, so C90 applies in every bond dimension; the exponentials form a group (`exact_add`, `exact0`), so the exact evolution sends no state to zero (`exact_lives`) and only the initial state need be non-zero (`P43_FreeFull.v`). Agreement composes C87 (simple) with C90 (full) over two set-ups of the same lattice (`same_lattice`), and C87/C88 with C92/C91 for free and classical models.
* **C93** Symmetries - a symmetry is a permutation of the local states and a weight per point (`sym`), which covers products of Pauli operators and rotations around z; a charge is the weight 2^q (`charged_sector`). A monomial matrix commutes with a matrix iff the entries match (`monomial`), so `matrix_exp` enters only through `exp_commutes`: what commutes with its argument commutes with it. Conservation composes `C93_commutes` with C87 (simple) and C90 (full). Each model is shown to commute entry by entry, from C58 and the entries of the sample terms.
* **C94** Refused evolve calls - `Front.v` puts the steps of `Ipeps.evolve` in their order and gives them as the open part `work` of the process
  of `Process.v`; the numerical work stays arbitrary. `C94_refused`: a dtau that `float` rejects, or a model without parameters, is refused
  before the numerical work but after the initialisation, so the network holds the product state of the refused model and counts as
  initialised. `C94_after_refusal`: a later call with any model starts from there. `C94_late`: gates that cannot be built, an unknown update
  type and a number of steps that `range` rejects are refused after the first renormalisation. `C94_complex`: simple updates of complex
  tensors are always refused, at the first bond, since `torch.clamp` takes no complex tensors. `C94_real`: real tensors and gates are never
  refused for their types and stay real. `C94_accepted`: every other call succeeds if the numerical work does. `C94_no_effect_refuted`: "a call
  that raises has no effect" is false, shown by a history of a small process.
* **C95** Classical models are only cooled - follows from the exact evolution of C88 and C91, since the exact state is the old one reweighted by
  a decreasing function of the energy; the inequality itself is Chebyshev's sum inequality, proved in `P46_Cooling.v` for finite sums over
  configurations. The specification is `average` (expectation value of a diagonal observable from the amplitudes of C84) and `cooler` (average
  energy not larger, and no cumulative share of low energies smaller). `C95_simple`, `C95_full`: a call of `evolve` that returns cools the
  state, strictly if two separated energies occur; `C95_succeeds`: with simple updates it does return. The matrix exponential enters through
  `exp_diag` and `exponential` as in C88, with `growing` (non-negative, monotone) added. `C95_square`, `C95_honeycomb`, `C95_kagome`: the Ising
  models without field, with their energies written out. `C95_walls`: the uniform state really loses energy, on lattices of all sizes.
* **C96** What the models report - `Observables.v` adds the observables of models/ising.py, heisenberg.py and of samples 03-06 as Pauli
  expressions (Pauli.v) and gives `measure` (Measure.v) the resulting model. The spec is `weight`, a recursive bound on an expression that
  does not look at matrices, and positivity of density matrices. A Pauli expression acts as a sum of unitaries with total weight `weight`
  (`peval_mixture`), and a positive density matrix cannot exceed 1 on a unitary (`exp1_bound`, `exp2_bound`). `C96_range`: any well-formed
  model; `C96_ising`, `C96_heisenberg`, `C96_compass`, `C96_honeycomb`, `C96_kagome`: the reported names with their bounds;
  `C96_honeycomb_sums`, `C96_kagome_sums`: totals are sums in sample 05 and averages in sample 06. `C96_mean_field`: with bond dimension 1 the
  bounds hold for whole sessions without any assumption on density matrices. `C96_positive_needed_refuted`: boundary tensors of legal
  shapes for which the library would report sz = 3. `C96_attained`: the bounds are attained.
* **C97** Common eigenstates do not change - `P48_Steady.v`. The spec is `eigenstate` (every term of the model acts on the amplitudes of C84 as
  a number) and `same_state` (amplitudes proportional by a nonzero number). The matrix exponential enters through `exp_eigen` only:
  eigenvectors of a matrix are eigenvectors of its exponential. `C97_gates`: the gates of the model act as numbers; `C97_simple`, `C97_full`:
  so updates that lose nothing (C87, C90) do not change the state. For product states nothing has to be assumed about losses
  (`C97_product`), since every update keeps each tensor a multiple of its vector (`directed_update`), and simple updates succeed
  (`C97_succeeds`). `C97_polarised`, `C97_heisenberg`: all spins along any one vector in the Heisenberg model; `C97_compass`: spins along
  or against x in the compass sample with jz = hz = 0. `C97_neel_refuted`: the Neel state is no such state. `C97_example`: lattices of all
  sizes, any number of steps.
* **C98** What the models report about spins that are not entangled - `P49_Mean.v`. The spec gives every spin its components (`bloch`) and
  every Pauli expression its value on a row of spins by recursion (`mean`: letters are components, products of operators on different spins
  are products of values); no matrices. `mean_quad` proves by induction on expressions that the matrices of pauli_matrix.py give these values.
  `C98_measure`: density matrices of a product state; `C98_product`, `C98_session`: every session with bond dimension 1 (from C76;
  that no spin is zero follows from the measurement having a result, `session_spans`).
  `C98_ising`, `C98_heisenberg`, `C98_compass`, `C98_honeycomb`, `C98_kagome`: all reported values written out, with the staggered signs,
  the directions of phi and chi and the sublattices. The real form of Y is covered where it is used, in the Heisenberg terms (`faithful`).
  `C98_turns`: spins up and down in turn give sz = 1 in the Heisenberg model.
* **C99** What the import of the package makes of its surroundings - `P50_Startup.v`, model `Startup.v` (Logger, load_cutensor_extension, sys.modules
  across failed imports). The spec says by a relation on letters (`spelled`, `names`) which values of ACETN_LOG_LEVEL stand for a level.
  `C99_logger`: one construction; the arguments log_level and log_file have no effect (line 21 compares a string with an integer).
  `C99_refused`, `C99_settled`, `C99_state`: any number of attempts: the first good value settles the level, the first attempt of all settles
  the extension, there is never a second handler. `C99_debug`, `C99_evolve`: debug mode, its reports (C09) and their number; the evolution does
  not depend on it. `C99_backend`: with C57, a configuration with backend "cutensor" finds the compiled module. Simplified: `upper` beyond ASCII.
* **C100** Without interactions the reported energy never rises - `P51_FreeCooling.v`. `C100_session`: bond dimension 1, either update, any requests
  between two measurements (`forward`: evolutions with steps >= 0). The vectors of C77 are multiplied by exp(-dtau/4 h) once per bond end;
  `cooling` diagonalises h and uses the correlation inequality of C95 (`chebyshev`), so that no factor raises the quotient <v|h|v>/<v|v>
  (`value`), and `energy_value` says the reported energy is the mean of these quotients. Unlike C85 nothing is asked of the width of the cell.
  `C100_succeeds`: with the simple update such sessions do not fail (no factor sends a vector to zero, `keeps`).
  `C100_law`: a function with the assumed law, and a step that takes the energy from 1/2 to 1/5; `C100_example`: a session on a 2x2 cell.
  `C100_strict` (`P52_FreeStrict.v`): if the vector at a site is not an eigenvector of its term (`mixed`) and the site shares a bond with a site
  that has a term (`active`), an evolution of at least one step with dtau > 0 makes the reported energy strictly smaller; `C100_strict_law`: a case.
