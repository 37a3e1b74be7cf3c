{
 "claims": [
  {
   "property": "C01",
   "status": "proved",
   "theorems": [
    "C01_every_link_exactly_once",
    "C01_bonds_join_neighbours",
    "C01_no_duplicates_and_counts"
   ],
   "note": "all cell sizes"
  },
  {
   "property": "C02",
   "status": "proved",
   "theorems": [
    "C02_generator_is_gate",
    "C02_total_generator"
   ],
   "note": "Stated for every linear embedding of one- and two-site operators; C02_generator_is_gate links the generator to the matrix exponentiated in the gate model."
  },
  {
   "property": "C03",
   "status": "proved",
   "theorems": [
    "C03_deficit",
    "C03_none_end"
   ],
   "note": "Exact deficit for every None pattern; C03_conserved_refuted is the witness against the naive expectation."
  },
  {
   "property": "C04",
   "status": "proved",
   "theorems": [
    "C04_gates_of_own_model"
   ],
   "note": "Any prior table and heap; models that build operators on demand."
  },
  {
   "property": "C05",
   "status": "proved",
   "theorems": [
    "C05_last_construction_wins",
    "C05_uncovered_keys_keep"
   ],
   "note": "Arbitrary sequences of constructions of arbitrary models."
  },
  {
   "property": "C06",
   "status": "proved",
   "theorems": [
    "C06_fresh_model_keeps_hamiltonian",
    "C06_cached_gates",
    "C06_cached_hamiltonian_after"
   ],
   "note": "Both kinds of model, any assignment of kept objects to bonds, any number of constructions; C06_hamiltonian_unchanged_refuted is the witness."
  },
  {
   "property": "C07",
   "status": "proved",
   "theorems": [
    "C07_schedule",
    "C07_once_per_step",
    "C07_palindrome"
   ],
   "note": ""
  },
  {
   "property": "C08",
   "status": "proved",
   "theorems": [
    "C08_split",
    "C08_bond_order_after"
   ],
   "note": ""
  },
  {
   "property": "C09",
   "status": "proved",
   "theorems": [
    "C09_labels_exchanged"
   ],
   "note": "C09_expected_labels_refuted is the witness against the expected labels."
  },
  {
   "property": "C10",
   "status": "proved",
   "theorems": [
    "C10_permute_back"
   ],
   "note": "bond_permute on rank-5 tensors, all directions"
  },
  {
   "property": "C11",
   "status": "proved",
   "theorems": [
    "C11_each_line_once",
    "C11_step_is_sweep",
    "C11_all_refreshed"
   ],
   "note": ""
  },
  {
   "property": "C12",
   "status": "proved",
   "theorems": [
    "C12_simultaneous",
    "C12_row_order"
   ],
   "note": ""
  },
  {
   "property": "C13",
   "status": "proved",
   "theorems": [
    "C13_moves_never_mismatch",
    "C13_product_states_run"
   ],
   "note": "the only error a move can raise is a division by a zero norm; a network on which every step succeeds is given (product states)"
  },
  {
   "property": "C14",
   "status": "proved",
   "theorems": [
    "C14_boundary_dimension"
   ],
   "note": ""
  },
  {
   "property": "C15",
   "status": "proved",
   "theorems": [
    "C15_kept_half_full_rank",
    "C15_kept_full_full_rank",
    "C15_kept_half_rsvd",
    "C15_kept_full_rsvd"
   ],
   "note": "both systems, full-rank and randomised SVD"
  },
  {
   "property": "C16",
   "status": "proved",
   "theorems": [
    "C16_needs_good_world",
    "C16_completion"
   ],
   "note": "Completion criterion for both distributed moves and every world size; necessity needs no assumption on the kernels."
  },
  {
   "property": "C17",
   "status": "proved",
   "theorems": [
    "C17_half_system_equals_sequential"
   ],
   "note": "Every rank ends with the network of the two sequential moves; projector values independent of the generator (full-rank SVD)."
  },
  {
   "property": "C18",
   "status": "proved",
   "theorems": [
    "C18_replicas"
   ],
   "note": "Induction over arbitrary sequences of distributed moves, bond updates and sweeps."
  },
  {
   "property": "C19",
   "status": "proved",
   "theorems": [
    "C19_second_direction_is_stale",
    "C19_equal_when_independent",
    "C19_sequential_refuted"
   ],
   "note": "Stale projectors of the second direction, agreement when they do not change, and a witness of disagreement."
  },
  {
   "property": "C20",
   "status": "proved",
   "theorems": [
    "C20_half_full_rank",
    "C20_half_rsvd",
    "C20_full_full_rank"
   ],
   "note": "P14_Projector.v: the overlap of the two projectors is a positive multiple of the identity"
  },
  {
   "property": "C21",
   "status": "proved",
   "theorems": [
    "C21_half_full_rank",
    "C21_half_rsvd",
    "C21_full_full_rank"
   ],
   "note": "P14_Projector.v: with a rank the kept dimension covers, the projectors reproduce the product"
  },
  {
   "property": "C22",
   "status": "proved",
   "theorems": [
    "C22_full_rsvd_real",
    "C22_full_rsvd_complex",
    "C22_complex_refuted"
   ],
   "note": "P14_Projector.v: exact for real data, exact description for complex data with a refuting witness"
  },
  {
   "property": "C23",
   "status": "proved",
   "theorems": [
    "C23_rsvd",
    "C23_fused_matmul",
    "C23_fused_3matmul",
    "C23_fused_3matmul_same"
   ],
   "note": "P15_Rsvd.v; QR and SVD are oracles with specifications shown to be satisfiable in Spectral.v"
  },
  {
   "property": "C24",
   "status": "proved",
   "theorems": [
    "C24_products"
   ],
   "note": "all product trees, both dtypes"
  },
  {
   "property": "C25",
   "status": "proved",
   "theorems": [
    "C25_complex",
    "C25_real",
    "C25_real_sums",
    "C25_wrong_sign",
    "C25_product_of_sums_refuted"
   ],
   "note": "exact description; the naive expectation for real dtype is refuted"
  },
  {
   "property": "C26",
   "status": "proved",
   "theorems": [
    "C26_imul"
   ],
   "note": ""
  },
  {
   "property": "C27",
   "status": "proved",
   "theorems": [
    "C27_averages"
   ],
   "note": "exact field arithmetic; density matrices are arbitrary with non-zero norm"
  },
  {
   "property": "C28",
   "status": "proved",
   "theorems": [
    "C28_exact",
    "C28_collisions"
   ],
   "note": "KeyError iff, and the exact value under every name"
  },
  {
   "property": "C29",
   "status": "proved",
   "theorems": [
    "C29_order"
   ],
   "note": "all permutations of the bond and site lists"
  },
  {
   "property": "C30",
   "status": "proved",
   "theorems": [
    "C30_scale",
    "C30_identity",
    "C30_linear"
   ],
   "note": "independent scalings of all tensors; equality of the whole result including errors"
  },
  {
   "property": "C31",
   "status": "proved",
   "theorems": [
    "C31_site_rdm"
   ],
   "note": "symbolic execution of the einsum program; dimensions arbitrary"
  },
  {
   "property": "C32",
   "status": "proved",
   "theorems": [
    "C32_bond_rdm"
   ],
   "note": "blocked and unblocked, arbitrary memory contents, four directions"
  },
  {
   "property": "C33",
   "status": "proved",
   "theorems": [
    "C33_one_table",
    "C33_construction_overwrites",
    "C33_to_converts",
    "C33_evolve_visible"
   ],
   "note": "any history of any number of networks; kernels opaque"
  },
  {
   "property": "C34",
   "status": "proved",
   "theorems": [
    "C34_save_keeps_tensors",
    "C34_save_load"
   ],
   "note": "any history between save and load"
  },
  {
   "property": "C35",
   "status": "proved",
   "theorems": [
    "C35_file_holds_all_sites"
   ],
   "note": "process starting without files"
  },
  {
   "property": "C36",
   "status": "proved",
   "theorems": [
    "C36_initialised_iff",
    "C36_evolve_start"
   ],
   "note": ""
  },
  {
   "property": "C37",
   "status": "proved",
   "theorems": [
    "C37_set_chi",
    "C37_who_shares",
    "C37_refs_valid",
    "C37_set_model_params"
   ],
   "note": ""
  },
  {
   "property": "C38",
   "status": "proved",
   "theorems": [
    "C38_latest_registration",
    "C38_overridden",
    "C38_rejects"
   ],
   "note": ""
  },
  {
   "property": "C39",
   "status": "proved",
   "theorems": [
    "C39_backends_agree",
    "C39_unknown_method"
   ],
   "note": "arithmetic on costs is arbitrary"
  },
  {
   "property": "C40",
   "status": "proved",
   "theorems": [
    "C40_number_of_sweeps",
    "C40_at_least_three",
    "C40_solver"
   ],
   "note": "C40_solver states it for the tensor solver itself (P23_Solver.v)."
  },
  {
   "property": "C41",
   "status": "proved",
   "theorems": [
    "C41_half_step1",
    "C41_half_step2",
    "C41_pinv_gap",
    "C41_sweeps",
    "C41_solve"
   ],
   "note": "Hermiticity follows from positivity; no rank assumption; LAPACK eigh/cholesky as oracles meeting their specification (such oracles are constructed in EighChol.v)."
  },
  {
   "property": "C42",
   "status": "proved",
   "theorems": [
    "C42_half_step1",
    "C42_half_step2"
   ],
   "note": "cholesky method; delta tied to the largest modulus in the normal equations written out entry by entry."
  },
  {
   "property": "C43",
   "status": "proved",
   "theorems": [
    "C43_cost_is_distance"
   ],
   "note": "all Hermitian norm tensors, positive or not"
  },
  {
   "property": "C44",
   "status": "proved",
   "theorems": [
    "C44_positive",
    "C44_hermitian",
    "C44_any_eigh"
   ],
   "note": "exact arithmetic; a norm tensor that is not Hermitian is not reproduced (C44_hermitian_needed_refuted); termination is proved for an eigh that does not raise"
  },
  {
   "property": "C45",
   "status": "proved",
   "theorems": [
    "C45_same_problem",
    "C45_undone",
    "C45_after_positive",
    "C45_finalize",
    "C45_solver_norm"
   ],
   "note": "exact arithmetic, gauge_fix_atol > 0 (for 0 torch substitutes a relative cutoff, not covered)"
  },
  {
   "property": "C46",
   "status": "proved",
   "theorems": [
    "C46_balance"
   ],
   "note": "any QR and SVD oracles meeting their specifications; exact arithmetic"
  },
  {
   "property": "C47",
   "status": "proved",
   "theorems": [
    "C47_lossless"
   ],
   "note": "any QR oracle meeting its specification; exact arithmetic"
  },
  {
   "property": "C48",
   "status": "proved",
   "theorems": [
    "C48_norm_is_rdm",
    "C48_gate_terms"
   ],
   "note": "any decomposition whose product is the turned site tensor; open-leg identity implies the trace"
  },
  {
   "property": "C49",
   "status": "proved",
   "theorems": [
    "C49_blocked"
   ],
   "note": "arbitrary memory contents and sizes"
  },
  {
   "property": "C50",
   "status": "proved",
   "theorems": [
    "C50_roundtrip",
    "C50_identity"
   ],
   "note": "the ratio form, and the exact condition (iff) under which strip undoes absorb"
  },
  {
   "property": "C51",
   "status": "proved",
   "theorems": [
    "C51_truncation",
    "C51_exact",
    "C51_identity_gate"
   ],
   "note": "lines 46-58 of simple_update.py; optimality over all competing pairs of reduced tensors"
  },
  {
   "property": "C52",
   "status": "proved",
   "theorems": [
    "C52_lookup",
    "C52_update"
   ],
   "note": ""
  },
  {
   "property": "C53",
   "status": "proved",
   "theorems": [
    "C53_when",
    "C53_write_back",
    "C53_first_result_lost"
   ],
   "note": ""
  },
  {
   "property": "C54",
   "status": "proved",
   "theorems": [
    "C54_in_bounds",
    "C54_injective",
    "C54_dense",
    "C54_row_major",
    "C54_strides_bounded"
   ],
   "note": "natural numbers instead of int64; C54_strides_bounded shows nothing exceeds the number of elements"
  },
  {
   "property": "C55",
   "status": "proved",
   "theorems": [
    "C55_sequential",
    "C55_distributed",
    "C55_same_network"
   ],
   "note": "Both code paths, all four directions."
  },
  {
   "property": "C56",
   "status": "proved",
   "theorems": [
    "C56_initial_site",
    "C56_initial_fits",
    "C56_errors",
    "C56_draws"
   ],
   "note": "success and entries, fit of the fresh network, errors otherwise; every site of the cell gets a draw of its own"
  },
  {
   "property": "C57",
   "status": "proved",
   "theorems": [
    "C57_user_options",
    "C57_defaults",
    "C57_device",
    "C57_no_cuda_device_refuted",
    "C57_backend",
    "C57_progressbar",
    "C57_unknown_option",
    "C57_dtype",
    "C57_model"
   ],
   "note": "C57_no_cuda_device_refuted: an indexed cuda device is kept without CUDA"
  },
  {
   "property": "C58",
   "status": "proved",
   "theorems": [
    "C58_heisenberg",
    "C58_ising"
   ],
   "note": ""
  },
  {
   "property": "C59",
   "status": "proved",
   "theorems": [
    "C59_neel_iff_even",
    "C59_staggered",
    "C59_default_state"
   ],
   "note": ""
  },
  {
   "property": "C60",
   "status": "proved",
   "theorems": [
    "C60_wrapper",
    "C60_callers",
    "C60_average"
   ],
   "note": ""
  },
  {
   "property": "C61",
   "status": "proved",
   "theorems": [
    "C61_weights_reset",
    "C61_split_refuted"
   ],
   "note": ""
  },
  {
   "property": "C62",
   "status": "proved",
   "theorems": [
    "C62_bond_direction"
   ],
   "note": ""
  },
  {
   "property": "C63",
   "status": "proved",
   "theorems": [
    "C63_transposed",
    "C63_transposed_bond",
    "C63_not_transposed_refuted"
   ],
   "note": "exact description; the untransposed expectation is refuted"
  },
  {
   "property": "C64",
   "status": "proved",
   "theorems": [
    "C64_absorbs",
    "C64_lossless",
    "C64_product_states"
   ],
   "note": "General absorption identity for every successful move, lossless case, and product states as a class where the hypotheses hold (C64_example instance)."
  },
  {
   "property": "C65",
   "status": "proved",
   "theorems": [
    "C65_simple_update",
    "C65_exact",
    "C65_identity",
    "C65_unchanged"
   ],
   "note": "End-to-end simple update of a bond (P22_SimpleUpdate.v)."
  },
  {
   "property": "C66",
   "status": "proved",
   "theorems": [
    "C66_guess",
    "C66_representable",
    "C66_real_guess",
    "C66_real_representable",
    "C66_complex_guess_refuted"
   ],
   "note": "Initial guess of the ALS solver (P23_Solver.v); the refuted theorem exhibits the complex target on which the solver fails."
  },
  {
   "property": "C67",
   "status": "proved",
   "theorems": [
    "C67_reduced",
    "C67_exact",
    "C67_identity_gate",
    "C67_no_worse",
    "C67_complex_refuted"
   ],
   "note": "update_reduced_tensors for all inputs; exactness and comparison with truncation for real data; complex failure as a refutation with an explicit witness"
  },
  {
   "property": "C68",
   "status": "proved",
   "theorems": [
    "C68_distributed_program"
   ],
   "note": "moves, sweeps and bond updates in any order, by simulation"
  },
  {
   "property": "C69",
   "status": "proved",
   "theorems": [
    "C69_full_update",
    "C69_exact",
    "C69_identity_gate"
   ],
   "note": "Full update of a bond on the network, from the site tensors and the ten boundary tensors to the new site tensors. The regularised Cholesky solve is covered by the inequality with als_epsilon. LAPACK is an oracle with its specification; exactness and the identity gate are stated for real data because the initial guess is wrong for complex data (C66, C67)."
  },
  {
   "property": "C70",
   "status": "proved",
   "theorems": [
    "C70_contract",
    "C70_refused",
    "C70_only_runtime_error"
   ],
   "note": "Contractions of the compiled backend on flat memory; cuTENSOR by its specification."
  },
  {
   "property": "C71",
   "status": "proved",
   "theorems": [
    "C71_backends",
    "C71_never_fails",
    "C71_lost_failure_refuted"
   ],
   "note": "Simulation of the torch solver by the in-place compiled one; cuSOLVER by its specification. The lost failure is a refuted expectation."
  },
  {
   "property": "C72",
   "status": "proved",
   "theorems": [
    "C72_group",
    "C72_survivor",
    "C72_muted",
    "C72_networks"
   ],
   "note": "Model of utils/distributed.py and of construction/deletion in ipeps.py; torch's init_process_group is assumed to succeed for a rank in range."
  },
  {
   "property": "C73",
   "status": "proved",
   "theorems": [
    "C73_host",
    "C73_cuda",
    "C73_mixed_refuted"
   ],
   "note": "Collectives by specification: NCCL takes tensors on pairwise different GPUs, gloo host tensors; .to(int) needs that CUDA device."
  },
  {
   "property": "C74",
   "status": "proved",
   "theorems": [
    "C74_session",
    "C74_boundary",
    "C74_construct"
   ],
   "note": "Model: Session.v. Example C74_example instantiates every hypothesis for a 2x2 cell with bond dimension 2, both updates."
  },
  {
   "property": "C75",
   "status": "proved",
   "theorems": [
    "C75_unit_sites"
   ],
   "note": "The start (unit sites) is established by C74_construct."
  },
  {
   "property": "C76",
   "status": "proved",
   "theorems": [
    "C76_mean_field"
   ],
   "note": "Invariant over all calls: every boundary number is a positive multiple of a ratio of phases attached to its two legs, so phases cancel around closed rings; full-system projectors with rsvd are excluded (their conjugation bug breaks the invariant)."
  },
  {
   "property": "C77",
   "status": "proved",
   "theorems": [
    "C77_dynamics",
    "C77_start",
    "C77_succeeds"
   ],
   "note": "Simulation of a four-line specification by the whole session; total correctness for the simple update. A full-update run may still end with a zero norm (complex vectors orthogonal to their conjugates, see C66)."
  },
  {
   "property": "C78",
   "status": "proved",
   "theorems": [
    "C78_compose",
    "C78_measure",
    "C78_chi",
    "C78_boundary",
    "C78_renormalize_again",
    "C78_no_steps"
   ],
   "note": "composition of sessions, measurements without effect, the boundary dimension set last, splitting of renormalisations, evolutions of no steps"
  },
  {
   "property": "C79",
   "status": "proved",
   "theorems": [
    "C79_weights"
   ],
   "note": "the evolution equals the specification with a vector per leg of every site, errors included"
  },
  {
   "property": "C80",
   "status": "proved",
   "theorems": [
    "C80_boundary_blind"
   ],
   "note": "two sessions with the same evolve calls, otherwise arbitrary"
  },
  {
   "property": "C81",
   "status": "proved",
   "theorems": [
    "C81_layer",
    "C81_renormalize",
    "C81_rdm",
    "C81_session"
   ],
   "note": "Evolve is excluded: QR and SVD are oracles whose result in another basis is another, equally good one. Layer.v has the congruence of all kernels, Basis.v the density matrices and averages."
  },
  {
   "property": "C82",
   "status": "proved",
   "theorems": [
    "C82_half_full_rank",
    "C82_half_rsvd",
    "C82_full_full_rank",
    "C82_full_rsvd_real",
    "C82_cutoff"
   ],
   "note": "P33_Optimal.v: rectangular Eckart-Young theorem applied to the cut; chi and cutoff enter through the kept number"
  },
  {
   "property": "C83",
   "status": "proved",
   "theorems": [
    "C83_step",
    "C83_evolve",
    "C83_product",
    "C83_bond_one",
    "torus_covers"
   ],
   "note": "Torus.v: amplitudes on any finite lattice covering the cell; P34_State.v: one bond, one call, product gates, bond dimension 1; torus_covers gives the periodic lattices; examples: a session and a CNOT on the GHZ state"
  },
  {
   "property": "C84",
   "status": "proved",
   "theorems": [
    "C84_layer",
    "C84_renormalize",
    "C84_measure",
    "C84_session"
   ],
   "note": "Two networks related by arbitrary non-zero complex factors on the site tensors and positive factors on the boundary tensors; libraries are arbitrary functions. C84_layer is the general form with proportional double layers. Evolutions are left out as in C81."
  },
  {
   "property": "C85",
   "status": "proved",
   "theorems": [
    "C85_vectors",
    "C85_session",
    "C85_fresh",
    "C85_succeeds"
   ],
   "note": "P36_Free.v (counting in FreeCount.v): gates of a model via make_gate and wrap; C85_vectors for the vectors, C85_session for whole sessions, C85_fresh from construction, C85_succeeds: no exception. exp laws are hypotheses on torch.matrix_exp for the terms of the model; C85_wide_refuted: cells one site wide lose a quarter; C85_example"
  },
  {
   "property": "C86",
   "status": "proved",
   "theorems": [
    "C86_evolve",
    "C86_bond_one"
   ],
   "note": "P37_FreeState.v: C83 with the gates of a field-only model; any bond dimension (C86_evolve, weights below the cutoff excluded as in C83) and bond dimension 1 without that condition; C86_example on tori of all sizes"
  },
  {
   "property": "C87",
   "status": "proved",
   "theorems": [
    "C87_sharp",
    "C87_small",
    "C87_product",
    "C87_succeeds",
    "C87_free"
   ],
   "note": "C87_sharp: fixed cutoff, every weight met is zero or at least the cutoff. C87_small: all small enough cutoffs. C87_product, C87_free: gates on separate sites and field-only models need no condition on the bond dimension. C87_succeeds: the updates do not fail unless the gates make nothing of the state. C87_example: bond dimension 2, GHZ state, any number of steps."
  },
  {
   "property": "C88",
   "status": "proved",
   "theorems": [
    "C88_stays",
    "C88_diagonal",
    "C88_succeeds",
    "C88_energy",
    "C88_energy_succeeds"
   ],
   "note": "Simple updates with diagonal gates from tensors of copy form: the form is kept (C88_stays), amplitudes are multiplied by the weights of the lattice (C88_diagonal), the updates succeed (C88_succeeds), and for models with diagonal terms the result is the exponential of the energy (C88_energy, C88_energy_succeeds). Laws used of matrix_exp: on diagonal matrices it applies a function to the entries, and the function turns sums into products. Concrete cases: C88_ising, C88_freeze."
  },
  {
   "property": "C89",
   "status": "proved",
   "theorems": [
    "C89_square",
    "C89_honeycomb",
    "C89_kagome",
    "C89_square_terms",
    "C89_honeycomb_terms",
    "C89_kagome_terms",
    "C89_honeycomb_bonds",
    "C89_kagome_bonds",
    "C89_reversed"
   ],
   "note": "Exactness uses C88 (exponential and small cutoff as there). The energies are stated as sums over lattice bonds."
  },
  {
   "property": "C90",
   "status": "proved",
   "theorems": [
    "C90_step",
    "C90_evolve",
    "C90_product",
    "C90_succeeds",
    "C90_fresh"
   ],
   "note": "Real data; als_epsilon = 0; the loss condition is stated on the networks met along the run (and discharged for product gates)."
  },
  {
   "property": "C91",
   "status": "proved",
   "theorems": [
    "C91_step",
    "C91_update",
    "C91_diagonal",
    "C91_energy",
    "C91_square",
    "C91_honeycomb",
    "C91_kagome"
   ],
   "note": "Real data; als_epsilon = 0 and the tolerances of C90. Runs that end are exact; with the pseudoinverse each bond update also succeeds (C91_update). Concrete: C91_ising (one bond of dimension 2) and C91_session (a whole session with bond dimension 1)."
  },
  {
   "property": "C92",
   "status": "proved",
   "theorems": [
    "C92_evolve",
    "C92_succeeds",
    "C92_agree",
    "C92_agree_free",
    "C92_agree_classical"
   ],
   "note": "Equality of whole states up to one positive factor; the full-update side needs real data (C90), the simple-update side a small enough cutoff (C87). Only evolutions that end are compared; C92_example gives a pair of runs that both succeed."
  },
  {
   "property": "C93",
   "status": "proved",
   "theorems": [
    "C93_commutes",
    "C93_gates",
    "C93_heisenberg_turn",
    "C93_heisenberg_charge",
    "C93_ising_turn",
    "C93_honeycomb_turn",
    "C93_kagome_turn",
    "C93_compass_rows",
    "C93_compass_columns",
    "C93_simple",
    "C93_model",
    "C93_full",
    "C93_heisenberg"
   ],
   "note": "conservation by simple updates needs a small cutoff and by full updates real tensors; neither may be asked for more than the bonds can carry (C87, C90); the Heisenberg evolution that conserves the spins pointing down is stated for simple updates; exchange of spins from the Neel state as a concrete case"
  },
  {
   "property": "C94",
   "status": "proved",
   "theorems": [
    "C94_real",
    "C94_refused",
    "C94_after_refusal",
    "C94_late",
    "C94_complex",
    "C94_accepted",
    "C94_no_effect_refuted"
   ],
   "note": "Numerical work is arbitrary; dtau and steps are classified by whether float() and range() reject them."
  },
  {
   "property": "C95",
   "status": "proved",
   "theorems": [
    "C95_simple",
    "C95_succeeds",
    "C95_full",
    "C95_square",
    "C95_honeycomb",
    "C95_kagome"
   ],
   "note": "Whole-lattice energy of real diagonal models under lossless updates; strict when separated energies occur; the exponential enters through its functional equation and monotonicity."
  },
  {
   "property": "C96",
   "status": "proved",
   "theorems": [
    "C96_range",
    "C96_ising",
    "C96_heisenberg",
    "C96_compass",
    "C96_honeycomb",
    "C96_kagome",
    "C96_honeycomb_sums",
    "C96_kagome_sums",
    "C96_mean_field",
    "C96_positive_needed_refuted"
   ],
   "note": "Observables of the library's models and of the samples as Pauli expressions; bounds from positivity of the density matrices, which is a hypothesis except for bond dimension 1 (C96_mean_field) and is shown to be needed."
  },
  {
   "property": "C97",
   "status": "proved",
   "theorems": [
    "C97_gates",
    "C97_simple",
    "C97_product",
    "C97_succeeds",
    "C97_full",
    "C97_aligned",
    "C97_polarised",
    "C97_compass",
    "C97_heisenberg",
    "C97_neel_refuted"
   ],
   "note": "matrix_exp enters through exp_eigen (eigenvectors of a matrix are eigenvectors of its exponential). Product states need no assumption about truncation; entangled eigenstates need updates that lose nothing. The Neel state is shown not to be an eigenstate."
  },
  {
   "property": "C98",
   "status": "proved",
   "theorems": [
    "C98_measure",
    "C98_product",
    "C98_ising",
    "C98_heisenberg",
    "C98_compass",
    "C98_honeycomb",
    "C98_kagome",
    "C98_session",
    "C98_heisenberg_session"
   ],
   "note": "The specification uses components of spins and no matrices. Spins of zero length are excluded (the source divides by the norm)."
  },
  {
   "property": "C99",
   "status": "proved",
   "theorems": [
    "C99_logger",
    "C99_refused",
    "C99_settled",
    "C99_state",
    "C99_debug",
    "C99_evolve",
    "C99_backend"
   ],
   "note": "Import of the package: any value of ACETN_LOG_LEVEL, any outcome of loading the extension, any number of attempts."
  },
  {
   "property": "C100",
   "status": "proved",
   "theorems": [
    "C100_session",
    "C100_succeeds",
    "C100_strict"
   ],
   "note": "The reported energies of any session with bond dimension 1 and Hermitian one-site terms, from the product states of C76-C77 and a correlation inequality in the eigenbasis of each term; with the simple update such sessions do not fail; the energy falls strictly while a site with a neighbour is not in an eigenstate. Of torch.matrix_exp it assumes cooling_law (and strict_law) for the terms of the model; C100_law and C100_strict_law show a function that has them and a case in which the energy falls from 1/2 to 1/5."
  }
 ]
}
