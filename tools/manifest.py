# Generates /verif/MANIFEST.json.
import json, os
C = []
def c(pid, status, theorems, note=""):
    C.append({"property": pid, "status": status, "theorems": theorems.split(), "note": note})

c("C01", "proved", "C01_uncompressed_mpo_is_sum_of_terms C01_exact_sum C01_repeated_onsite_term_refuted",
  "Exact result for every legal list of calls; the loss of a repeated one-site term is a finding with a witness.")
c("C02", "proved", "C02_compression_preserves_product C02_compression_preserves_generated_operator",
  "Arbitrary chains for which the debug build completes (release gives the same chain), and all generated chains.")
c("C03", "proved", "C03_generation_never_aborts")
c("C04", "proved", "C04_compression_never_grows_a_bond C04_bond_dimensions")
c("C05", "proved", "C05_sparse_matrix_is_dense_matrix C05_equality_compares_all_elements")
c("C06", "proved", "C06_labels C06_labels_are_stable")
c("C07", "proved", "C07_argument_order_is_irrelevant C01_exact_sum", "Sign normalisation is covered by C01_exact_sum.")
c("C08", "proved", "C08_string_term C08_tail_string_sign_refuted",
  "Exact: a term with an implicit tail string whose operator starts with a negative number comes out negated (finding).")
c("C09", "proved", "C09_ignored_coefficients_leave_no_trace C09_generation_without_terms_is_undefined")
c("C10", "proved", "C10_both_representations_agree")
c("C11", "proved", "C11_only_allowed_blocks")
c("C12", "proved", "C12_centralize_puts_center C12_centralize_out_of_range")
c("C13", "proved", "C13_flags_truthful C13_load_leaves_stale_flags_refuted",
  "All histories of the operations that know the flags; the inherited Load leaves stale flags (finding, witness).")
c("C14", "proved", "C14_canonicalization_preserves_state", "For every exact decomposition; rounding is not modelled.")
c("C15", "proved", "C15_reverse")
c("C16", "proved", "C16_exact_ownership C16_nothing_leaks")
c("C17", "proved", "C17_copy_is_equal C17_assignment_is_equal C17_copies_are_independent C17_self_assignment_destroys",
  "Self assignment silently empties the container (finding).")
c("C18", "proved", "C18_dump_then_load C18_dump_writes_every_slot C18_load_outcome")
c("C19", "proved", "C19_runs_complete C19_two_sites_or_no_sweep_refuted", "N=2 or zero sweeps: the returned energy is uninitialised (finding).")
c("C20", "proved", "C20_memory_bound C20_everything_on_disk", "The bound is two, not three.")
c("C21", "proved", "C21_environments_are_current")
c("C22", "proved", "C22_finished_runs_can_be_resumed")
c("C23", "proved", "C23_crash_inside_a_sweep C23_crash_between_sweeps C23_crash_during_preparation",
  "Every crash point between two file operations; a torn write is not modelled.")
c("C24", "proved", "C24_boundaries",
  "The center is at left+1 when the sites right of left+1 were right canonical before, as the code assumes.")
c("C25", "proved", "C25_two_sites_lose_a_tensor")
c("C26", "proved", "C26_sweeps C26_run C26_no_noises_refuted C26_no_sweeps_refuted C26_reused_directory_refuted",
  "Runs need at least one noise and one sweep; reusing a temporary directory after the maximal bond dimension was raised and lowered uses stale environments.")
c("C27", "proved", "C27_one_step C27_every_history C27_runs_end_in_range C27_runs_use_noises_in_range",
  "Rationals with any monotone idempotent rounding; overflow and NaN are not modelled.")
c("C40", "proved", "C40_eigensolver_stays_in_its_arrays C40_eigensolver_few_iterations_refuted C40_exponential_stays_in_its_arrays C40_exponential_few_iterations_refuted",
  "Arbitrary numerical operations; max_iterations below 2 is undefined behaviour (finding).")
c("C41", "proved", "C41_eigensolver_frees C41_exponential_frees", "Also states what the result is a combination of.")
c("C42", "proved", "C42_answer_is_multiset_inclusion C42_answers C42_repeated_or_empty_refuted C42_collisions_refuted",
  "Lists with a repeated sector, or empty, can be undefined behaviour; equal hashes give wrong answers.")
c("C28", "proved", "C28_graceful C28_any_schedule C28_emergency_window_refuted", "Every schedule of signals, boundary, number of sweeps. Finding: an emergency signal between the last update of a sweep and the post-processing leaves the updated center tensor in memory only.")
c("C29", "proved", "C29_graceful_stop C29_emergency_stop C29_flags_stay C29_later_run_refuted C29_later_run_emergency_refuted", "The run stops as requested. Finding: the static flags are never cleared, so a later run in the same process does one sweep (or one update) only.")
c("C30", "proved", "C30_sweeps C30_preparation C30_rerun C30_reused_directory_refuted", "Operators are found and belong to the current tensors. Finding: a directory used with another maximal bond dimension in between gives stale operators.")
c("C31", "proved", "C31_effective_hamiltonian C31_energy_every_cut C31_gauge C31_gauge_left C31_empty_column_refuted", "Every column of the matrices left of the cut and every row right of it must have an element. Finding: without one, block growing contracts a default constructed tensor.")
c("C32", "proved", "C32_env_tasks_once C32_lanczos_tasks_once C32_sum C35_dynamic C35_init_many C35_init_few", "Environment growing, state expansion, Lanczos multiplication and the DMRG farms, on a model of messages in which buffering of sends is arbitrary.")
c("C33", "proved", "C33_env_terminates C33_lanczos_terminates C33_no_worker_refuted C33_reaches_final C35_dynamic C35_static C35_grow C35_init_many C35_init_few", "Bounded length, progress without any buffering, all workers stopped and no message left. Finding: without workers the master waits for ever.")
c("C34", "proved", "C34_vmps C34_tdvp C34_dmrg", "Each collective call and each complete exchange is one event; the exchanges themselves are C32, C33, C35.")
c("C35", "proved", "C35_dynamic C35_static C35_grow C35_init_many C35_init_few", "The tables of the dynamic multiplication partition the terms; static sums and grown operators use exactly them.")
c("C36", "proved", "C36_any_schedule C36_ends C36_no_data_race C36_computes_the_sweeps C36_end_of_run C36_memory_left_refuted", "Instruction-level interleavings; finer ones show no more because no two concurrent instructions conflict (C36_no_data_race). Finding: the run leaves tensors in memory, so that another run with the same object aborts.")
c("C37", "proved", "C37_bond_time C37_site_time C37_symmetric C37_schedule", "Times are rationals.")
c("C38", "proved", "C38_sweep C38_preparation C38_overlap_files C38_two_sites_refuted C38_last_tensor_lost_refuted", "Findings: on two sites the sweep uses an environment that was never loaded; with local_op_corr = false the preparation overwrites the last tensor with the one of the operator's site.")
c("C39", "proved", "C39_record C39_global_refuted", "Holds with local_op_corr = true (the default). Finding: with local_op_corr = false the record is written out of bounds for every N >= 2.")
c("C46", "proved", "C46_hubbard_hopping C46_anticommutation", "End to end through AddTerm and Gen (compressed or not), for every list of bonds. Needs i <> j, which the code does not check.")
c("C47", "proved", "C47_tj_hopping C47_same_site_throws", "End to end, any list of bonds in any orientation.")
c("C48", "proved", "C48_hubbard_products C48_hubbard_fermions C48_tj_tables C48_tj_exchanged_refuted C48_spin_tables C48_spin_algebra", "Finding: the t-J operators bdnc_multi_bupa and bupc_multi_bdna are exchanged.")
c("C49", "proved", "C49_spin C49_hubbard C49_tj C49_symmetric C49_same_site_asserts", "End to end on the three kinds of sites.")
c("C44", "proved", "C44_product_state C44_product_state_last C44_wrong_length C44_extended C44_zero_div_refuted C44_single_site_refuted", "Findings: DirectStateInitZeroDivMps puts the whole divergence on the last tensor although its documentation promises tensors of zero flux; the extended initialisation on one site has a non-trivial left end.")
c("C52", "proved", "C52_mps_sum C52_mpo_sum C52_single_site_refuted C52_aliasing_refuted", "Findings: one site gives a right end of dimension two; FiniteMPSAdd into one of its operands destroys the operand first.")
c("C53", "proved", "C53_taylor C53_order_zero C53_rational", "Any truncation, variational product and centralisation that keep the operator. The highest order is max_order - 1.")
c("C54", "proved", "C54_scale C54_normalize C54_dump_load C54_load_keeps_flags C54_no_directory C54_histories C54_stale_flags_refuted C54_no_center_file_refuted", "Finding: loading an MPO without center, or without center file, over one that has a center leaves flags that are not true of the loaded tensors.")
c("C56", "proved", "C56_inner_product", "Any commutative ring with conjugation.")
c("C57", "proved", "C57_product C57_identity", "Any commutative ring.")
c("C58", "proved", "C58_trace", "Any commutative ring.")
c("C43", "proved", "C43_constructor C43_missing C43_default C43_wrong_kind C43_wrong_element C43_right C43_try C43_try_char C43_try_sizes C43_numbers C43_numbers_case C43_int_not_strict_refuted",
  "Finding: integer entries are not checked strictly. 4.7 is read as 4, true as 1, 2^32+5 as 5, -1 as a size of 2^64-1, and a float outside the range is undefined behaviour.")
c("C50", "proved", "C50_one_site C50_listed_sites C50_all_sites C50_two_sites C50_two_sites_all C50_four_sites C50_empty_list_refuted C50_unsorted_refuted C50_four_sites_memory_refuted",
  "every value equals the expectation value of the operators on the requested sites; memory is empty at the end. The directory is only read (it is a constant of the model). The four-site version keeps exactly the sites left_over. Empty and unsorted lists are undefined.")
c("C51", "proved", "C51_expansion C51_operators_exist C51_one_site C51_one_site_list C51_multi_site C51_multi_site_one_op C51_two_site C51_two_site_one_op C51_equal_sites_refuted C51_equal_sites_throws",
  "values equal expectation values and the state is kept; equal neighbouring sites are silently measured on the wrong pair (refuted), or throw in the other overload.")
c("C59", "proved", "C59_no_term_can_be_added_refuted C59_first_term_refuted", "Refuted property: no call ever returns normally. A node of a path is looked up among the links of a site where it was never entered.")
c("C60", "proved", "C60_single_site_run C60_memory_bound C60_runs_in_sequence C60_no_sweeps_refuted C60_one_site_refuted", "Findings: no sweeps returns an uninitialised energy; a chain of one site is not optimised and 0 is returned.")
c("C61", "proved", "C61_crash_inside_a_sweep C61_crash_between_sweeps C61_crash_during_preparation", "Finding: after a crash between sweeps site 0 is stale.")
c("C62", "proved", "C62_two_site_effective_hamiltonian C62_single_site_effective_hamiltonian C62_energy_any_two_sites C62_energy_any_site C62_same_as_dmrg", "")
c("C63", "proved", "C63_single_site_noise_right C63_single_site_noise_left C63_single_site_noise_right_is_H C63_single_site_noise_left_is_H C63_two_site_noise_right C63_two_site_noise_left C63_two_site_noise_right_is_H C63_two_site_noise_left_is_H C63_two_site_hand_over C63_single_site_hand_over_right C63_single_site_hand_over_left", "What two-site noise to the right adds is stated for an outgoing bond; for an incoming bond the code uses a factor of the MPO tensor instead, and only the amplitudes are proved.")
c("C64", "proved", "C64_left_environment C64_right_environment C64_effective_hamiltonian", "That each task is done once is C32.")
c("C65", "proved", "C65_energy_belongs_to_the_vector C65_eigenvector_when_residual_vanishes", "Exact arithmetic; LAPACK is assumed to return the eigensystems of the tridiagonal matrices it is given.")
c("C66", "proved", "C66_step_keeps_norm_and_energy C66_exact_when_residual_vanishes C66_mpi_norm_refuted", "Exact arithmetic. The distributed solver drops the norm of the state: refuted for it.")
c("C67", "proved", "C67_dynamic_product C67_static_product C67_grow_left C67_grow_right C67_start_many C67_start_few", "Exact arithmetic: sums may be added in another order. Composes the exchanges of C35 with the contractions of C31.")
c("C68", "proved", "C68_preparation C68_updates C68_run C68_emergency", "Exact complex arithmetic; SVD without truncation; LAPACK's eigensystems are assumed correct for the matrices of the run. Composes C28, C31 and C65. Uses the axioms of the standard library's reals.")
c("C69", "proved", "C69_substeps C69_preparation C69_steps C69_run", "Exact complex arithmetic; SVD and QR without truncation; LAPACK's eigensystems are assumed correct for the matrices of the run. Composes C38, C62 and C66. Uses the axioms of the standard library's reals.")
c("C70", "proved", "C70_updates C70_run", "As C69; composes C21, C62 and C65.")
c("C71", "proved", "C71_updates C71_noise C71_run", "As C70; composes C60, C62, C63 and C65. Uses the axioms of the standard library's reals.")
c("C72", "proved", "C72_updates C72_noise C72_boundaries C72_run", "As C71; composes C26, C62, C63 and C65. Environments left in a temporary directory must belong to the chain (else C26_reused_directory_refuted). Uses the axioms of the standard library's reals.")
c("C73", "proved", "C73_acted C73_overlap C73_record C73_bound", "Composes C39 and C69. C73_acted and C73_overlap need neither a Hermitian MPO nor LAPACK. Norm and bound without truncation. Uses the axioms of the standard library's reals.")
c("C74", "proved", "C74_updates C74_run C74_bound C74_substeps C74_steps C74_evolution C74_update C74_energy_refuted", "The SVD is a contract (isometries, kept part orthogonal to the rest, relative discarded weight err, at most Dmax values), LAPACK is correct along the run. C74_energy_refuted: the stored MPS is neither normalized nor of the returned energy. Uses the axioms of the standard library's reals.")
c("C75", "proved", "C75_updates C75_run", "Exact SVD; no hypothesis about LAPACK. Uses the axioms of the standard library's reals.")
c("C76", "proved", "C76_substeps C76_steps C76_total C76_record", "Exact SVD and QR; no hypothesis about LAPACK. Uses the axioms of the standard library's reals.")
c("C77", "proved", "C77_vmps C77_vmps_eigen C77_single C77_tdvp C77_dmrg C77_floor", "Joins C01 to C11 with C68 to C71 and C75: the conclusions mention only the added terms and amplitudes. As there: exact SVD and QR, LAPACK correct along the run. Hypotheses on the calls as in C10: no one-site term twice, no implicit negative tail string. Uses the axioms of the standard library's reals.")
c("C78", "proved", "C78_truncate C78_distance C78_lossless C78_within C78_zero C78_short C78_case", "QR exact, truncated SVD by its contract for tensors that are not zero (orthonormal kept vectors, kept weight 1 - TruncErr, at most Dmax values, TruncErr above trunc_err only at Dmax). Real arithmetic; not-a-number from a division by zero is the outcome Ub. Uses the axioms of the standard library's reals.")
c("C79", "proved", "C79_state C79_renyi C79_von_neumann C79_order_zero C79_zero C79_case C79_nan_refuted", "QR exact; the SVD by its contract on the tensors the call hands to it (exact, orthogonal factors, values not negative, zeros kept). Real arithmetic; a value that is not a number is a separate value. C79_nan_refuted: a product state stored with bond dimension two has entropy zero but gives NaN for n = 1. Uses the axioms of the standard library's reals.")
c("C80", "proved", "C80_centralize C80_range C80_normalize C80_normalize_uncentered_refuted C80_truncate C80_distance C80_truncate_normalize C80_short C80_case", "QR and SVD by their contracts (exact; the truncated SVD only on tensors that are not zero). The operator zero is left out of Truncate and Normalize. C80_normalize_uncentered_refuted: Normalize without a center divides by the norm of the first tensor only. Uses the axioms of the standard library's reals.")
c("C81", "proved", "C81_product C81_lossless C81_square C81_square_normalize C81_no_step_refuted C81_two_sites_refuted C81_short C81_blind_start_refuted C81_case", "QR and SVD by their contracts (the truncated SVD only on tensors that are not zero). C81_no_step_refuted, C81_two_sites_refuted: on two sites, or with no sweeps, the output is the start and the flags are wrong. C81_blind_start_refuted: without the overlap of start and product the first decomposed tensor can be zero. Uses the axioms of the standard library's reals.")
c("C82", "proved", "C82_exp C82_bound C82_exponential C82_lossless C82_two_sites_refuted C82_case", "QR and SVD by their contracts. The call returns, stops at the assertion, or meets a zero operator (degenerate); bond dimension of the returned sum after the final QR is not bounded, the contracts do not bound it. C82_two_sites_refuted: on two sites the optimised power is the start divided by n. Uses the axioms of the standard library's reals.")
c("C83", "proved", "C83_updates C83_run C83_emergency C83_bonds C83_full_outside C83_case_outside C83_energy_above_spectrum C83_energy_without_truncation C83_energy_distance C83_exact_svd C83_same_update C83_energy_of_the_stored_chain_refuted C83_case_decompositions C83_case_lapack C83_case_chains C83_case_run C83_case_refuted", "SVD, QR, combiners and LAPACK by their contracts. C83_energy_of_the_stored_chain_refuted: with truncation the returned energy is not the one of the stored chain. Uses the axioms of the standard library's reals.")
c("C84", "proved", "C84_state C84_updates C84_run C84_bound C84_svd C84_substeps C84_center C84_evolution C84_svd_evolution C84_stuck C84_case_svd C84_case_run C84_case_evolution", "The SVD and QR of the tensor library are assumed to work block by block (along_blocks, along_subs, block_qr). C84_stuck: a run from the empty state of a hopping model stays at energies of at least 0 although the spectrum goes down to -2. Uses the axioms of the standard library's reals.")
c("C85", "proved", "C85_state C85_updates C85_svd C85_preparation C85_run C85_emergency C85_bound C85_stuck C85_case_decompositions C85_case_run", "The SVD, QR and combiners of the tensor library are assumed to work block by block (d_along, block_move). C85_stuck: a run from the empty state of a hopping model stays at energies of at least 0 although the spectrum goes down to -2, for every Dmax and LAPACK. Uses the axioms of the standard library's reals.")
c("C86", "proved", "C86_applied C86_vanish C86_operator C86_record C86_selection C86_case_operators C86_case_run", "C86_record is C73_record for an SVD that truncates (the norm is then not kept). The SVD and QR of the tensor library are assumed to work block by block (along_subs, block_qr). Uses the axioms of the standard library's reals.")
c("C87", "proved", "C87_updates C87_run C87_emergency C87_case_highest C87_case_lower", "Exact SVD, QR and combiners; no hypothesis about LAPACK. Uses the axioms of the standard library's reals.")
c("C88", "proved", "C88_second_run C88_died_in_step C88_died_acting C88_died_copying C88_case C88_not_continued_refuted C88_mixed_refuted", "Findings: a repeated call acts with the operator again instead of continuing; files left by an interrupted step are a mixture of times that the next call does not detect; an interrupted copy of the initial state is never repaired. Files that were being written when the process died are not modelled: a file is written or not.")
c("C89", "proved", "C89_noised C89_plain C89_assigned_refuted C89_cleared_refuted C89_processes C89_processes_refuted C89_case C89_case_runs", "Findings: noises assigned after construction are ignored; removing them after construction makes the call fail. Of the distributed version only the choice of the algorithm is modelled here.")
c("C90", "proved", "C90_sites C90_uniform C90_direction C90_equal C90_empty C90_case", "The tensor library enters through the rule that all blocks of a tensor have one divergence, and through InverseIndex, which changes the direction only.")
c("C91", "proved", "C91_death_inside_a_sweep C91_files_on_the_way_right C91_files_on_the_way_back C91_death_between_sweeps C91_death_during_preparation C91_case C91_case_boundary C91_case_points C91_mixed_chain", "Deaths lie between file operations. Tensors are abstract, so that the next run completes means that no file it needs is missing; bond dimensions of the mixed chain may not fit, which the tensor library would reject.")
c("C92", "proved", "C92_death_during_an_update C92_the_site_in_memory C92_any_boundaries C92_death_while_loading C92_death_while_writing C92_death_between_sweeps C92_death_during_preparation C92_case_preparing C92_case C92_mixed_chain C92_case_between C92_case_further_in", "A file is written or removed as a whole or not at all. No signal arrives before the death or during the second run (C28 and C29 apply to the second run with signals, as its start is shown to be a valid one). After a death between sweeps the right operators must be those of the chain that the preparation of the second run makes (finding of C30). Tensors are abstract: bond dimensions of the mixed chain may not fit, which the tensor library would reject.")
c("C45", "proved", "C45_file_names_never_collide")
c("C55", "proved", "C55_norm_of_center")

json.dump({"claims": C}, open(os.path.join(os.path.dirname(__file__), "..", "MANIFEST.json"), "w"), indent=1)
