# What `Print Assumptions` lists for each theorem

Generated by tools/assumptions.py. "closed" means: closed under the global context (no axiom at all).

| property | theorem | file | axioms |
|---|---|---|---|
| C01 | C01_guru_dft | PropDft.v | `ClassicalDedekindReals.sig_forall_dec`, `ClassicalDedekindReals.sig_not_dec`, `FunctionalExtensionality.functional_extensionality_dep` |
| C01 | C01_guru_split_dft | PropDft.v | `ClassicalDedekindReals.sig_forall_dec`, `ClassicalDedekindReals.sig_not_dec`, `FunctionalExtensionality.functional_extensionality_dep` |
| C01 | C01_many_dft | PropDft.v | `ClassicalDedekindReals.sig_forall_dec`, `ClassicalDedekindReals.sig_not_dec`, `FunctionalExtensionality.functional_extensionality_dep` |
| C01 | C01_plan_dft | PropDft.v | `ClassicalDedekindReals.sig_forall_dec`, `ClassicalDedekindReals.sig_not_dec`, `FunctionalExtensionality.functional_extensionality_dep` |
| C02 | C02_frame | PropDft.v | `ClassicalDedekindReals.sig_forall_dec`, `ClassicalDedekindReals.sig_not_dec`, `FunctionalExtensionality.functional_extensionality_dep` |
| C02 | C02_frame_many | PropDft.v | `ClassicalDedekindReals.sig_forall_dec`, `ClassicalDedekindReals.sig_not_dec`, `FunctionalExtensionality.functional_extensionality_dep` |
| C03 | C03_new_array | PropDft.v | `ClassicalDedekindReals.sig_forall_dec`, `ClassicalDedekindReals.sig_not_dec`, `FunctionalExtensionality.functional_extensionality_dep` |
| C03 | C03_new_array_split | PropDft.v | `ClassicalDedekindReals.sig_forall_dec`, `ClassicalDedekindReals.sig_not_dec`, `FunctionalExtensionality.functional_extensionality_dep` |
| C04 | C04_round_trip | PropDft.v | `ClassicalDedekindReals.sig_forall_dec`, `ClassicalDedekindReals.sig_not_dec`, `FunctionalExtensionality.functional_extensionality_dep` |
| C05 | C05_backward | PropDft.v | `ClassicalDedekindReals.sig_forall_dec`, `ClassicalDedekindReals.sig_not_dec`, `FunctionalExtensionality.functional_extensionality_dep` |
| C05 | C05_backward_many | PropDft.v | `ClassicalDedekindReals.sig_forall_dec`, `ClassicalDedekindReals.sig_not_dec`, `FunctionalExtensionality.functional_extensionality_dep` |
| C06 | C06_pure | PropDft.v | `ClassicalDedekindReals.sig_forall_dec`, `ClassicalDedekindReals.sig_not_dec`, `FunctionalExtensionality.functional_extensionality_dep` |
| C07 | C07_safe_mulmod | PropPrimes.v | closed |
| C07 | C07_MULMOD | PropPrimes.v | closed |
| C07 | C07_power_mod | PropPrimes.v | closed |
| C08 | C08_prime_factors | PropPrimes.v | closed |
| C08 | C08_generator | PropPrimes.v | closed |
| C09 | C09_first_divisor | PropPrimes.v | closed |
| C09 | C09_is_prime | PropPrimes.v | closed |
| C09 | C09_next_prime | PropPrimes.v | closed |
| C09 | C09_factors_into | PropPrimes.v | closed |
| C09 | C09_isqrt | PropPrimes.v | closed |
| C09 | C09_choose_radix | PropPrimes.v | closed |
| C09 | C09_modulo | PropPrimes.v | closed |
| C09 | C09_isqrt_INT_MAX_refuted | PropPrimes.v | closed |
| C09 | C09_first_divisor_top_refuted | PropPrimes.v | closed |
| C10 | C10_plan_built | PropPlanner.v | closed |
| C10 | C10_created_plan_built | PropPlanner.v | closed |
| C10 | C10_wisdom_cannot_break | PropPlanner.v | closed |
| C10 | C10_lookup_sound | PropWisdom.v | closed |
| C10 | C10_lookup_complete | PropWisdom.v | closed |
| C11 | C11_remembered | PropPlanner.v | closed |
| C11 | C11_infeasible | PropPlanner.v | closed |
| C11 | C11_created_is_blessed | PropPlanner.v | closed |
| C11 | C11_kept | PropWisdom.v | closed |
| C11 | C11_found_again | PropWisdom.v | closed |
| C12 | C12_table_holds_history | PropWisdom.v | closed |
| C13 | C13_forget_wisdom | PropPlanner.v | closed |
| C13 | C13_forget_accursed | PropPlanner.v | closed |
| C13 | C13_creation_drops_accursed | PropPlanner.v | closed |
| C13 | C13_forget_all | PropWisdom.v | closed |
| C14 | C14_failure_no_effect | PropImport.v | closed |
| C14 | C14_only_exportable | PropImport.v | closed |
| C14 | C14_terminates | PropImport.v | closed |
| C14 | C14_api | PropImport.v | closed |
| C15 | C15_merge | PropImport.v | closed |
| C15 | C15_exact | PropImport.v | closed |
| C15 | C15_stable | PropImport.v | closed |
| C16 | C16_accepted | PropImport.v | closed |
| C16 | C16_rejected | PropImport.v | closed |
| C16 | C16_other_configuration | PropImport.v | closed |
| C17 | C17_wisdom_only | PropPlanner.v | closed |
| C17 | C17_create | PropPlanner.v | closed |
| C18 | C18_scoped | PropPlanner.v | closed |
| C18 | C18_timelimit | PropPlanner.v | closed |
| C19 | C19_no_leak | PropPlanner.v | closed |
| C19 | C19_search_minimal | PropPlanner.v | closed |
| C19 | C19_search_or_wisdom | PropPlanner.v | closed |
| C20 | C20_masks_fit | PropFlags.v | closed |
| C20 | C20_destroy_input | PropFlags.v | closed |
| C20 | C20_patience_ordered | PropFlags.v | closed |
| C20 | C20_planning_flags | PropFlags.v | closed |
| C20 | C20_patience_level | PropFlags.v | closed |
| C20 | C20_fallback | PropFlags.v | closed |
| C20 | C20_estimate | PropFlags.v | closed |
| C21 | C21_range | PropFlags.v | `ClassicalDedekindReals.sig_forall_dec`, `ClassicalDedekindReals.sig_not_dec`, `Classical_Prop.classic`, `FunctionalExtensionality.functional_extensionality_dep` |
| C21 | C21_unlimited | PropFlags.v | `ClassicalDedekindReals.sig_forall_dec`, `ClassicalDedekindReals.sig_not_dec`, `Classical_Prop.classic`, `FunctionalExtensionality.functional_extensionality_dep` |
| C21 | C21_monotone | PropFlags.v | `ClassicalDedekindReals.sig_forall_dec`, `ClassicalDedekindReals.sig_not_dec`, `Classical_Prop.classic`, `FunctionalExtensionality.functional_extensionality_dep` |
| C21 | C21_cast_exact | PropFlags.v | `ClassicalDedekindReals.sig_forall_dec`, `ClassicalDedekindReals.sig_not_dec`, `Classical_Prop.classic`, `FunctionalExtensionality.functional_extensionality_dep` |
| C22 | C22_cpy1d | PropCopy.v | closed |
| C22 | C22_cpy2d | PropCopy.v | closed |
| C22 | C22_cpy2d_tiled | PropCopy.v | closed |
| C22 | C22_tiledbuf_no_overrun | PropCopy.v | closed |
| C22 | C22_cpy2d_pair | PropCopy.v | `ClassicalDedekindReals.sig_forall_dec`, `ClassicalDedekindReals.sig_not_dec`, `FunctionalExtensionality.functional_extensionality_dep` |
| C23 | C23_transpose | PropCopy.v | closed |
| C23 | C23_transpose_tiled | PropCopy.v | closed |
| C23 | C23_tiledbuf_no_overrun | PropCopy.v | closed |
| C24 | C24_toms513 | PropTranspose.v | closed |
| C24 | C24_toms513_any_move_size | PropTranspose.v | closed |
| C24 | C24_gcd | PropTranspose.v | closed |
| C24 | C24_cut | PropTranspose.v | closed |
| C24 | C24_any_copy_plan | PropTranspose.v | closed |
| C25 | C25_compress_contiguous | PropTensor.v | closed |
| C25 | C25_compress | PropTensor.v | `ClassicalDedekindReals.sig_forall_dec`, `ClassicalDedekindReals.sig_not_dec`, `FunctionalExtensionality.functional_extensionality_dep` |
| C25 | C25_identified | PropTensor.v | closed |
| C25 | C25_append_split | PropTensor.v | closed |
| C25 | C25_max_index | PropTensor.v | closed |
| C25 | C25_size | PropTensor.v | closed |
| C26 | C26_inplace_locations | PropTensor.v | closed |
| C26 | C26_equal_strides_accepted | PropTensor.v | closed |
| C27 | C27_layout | PropDft.v | `ClassicalDedekindReals.sig_forall_dec`, `ClassicalDedekindReals.sig_not_dec`, `FunctionalExtensionality.functional_extensionality_dep` |
| C27 | C27_r2c_layout | PropDft.v | closed |
| C27 | C27_c2r_layout | PropDft.v | closed |
| C27 | C27_inplace_rows | PropDft.v | closed |
| C28 | C28_guru | PropDft.v | closed |
| C28 | C28_many | PropDft.v | closed |
| C28 | C28_null | PropDft.v | `ClassicalDedekindReals.sig_forall_dec`, `ClassicalDedekindReals.sig_not_dec`, `FunctionalExtensionality.functional_extensionality_dep` |
| C28 | C28_null_many | PropDft.v | `ClassicalDedekindReals.sig_forall_dec`, `ClassicalDedekindReals.sig_not_dec`, `FunctionalExtensionality.functional_extensionality_dep` |
| C29 | C29_read_hex | PropText.v | closed |
| C29 | C29_int | PropText.v | closed |
| C29 | C29_int_min_refuted | PropText.v | closed |
| C29 | C29_hash_word | PropText.v | closed |
| C29 | C29_flags_word | PropText.v | closed |
| C29 | C29_percent_d | PropText.v | closed |
| C29 | C29_name | PropText.v | closed |
| C29 | C29_name_bounded | PropText.v | closed |
| C29 | C29_file_chunking | PropText.v | closed |
| C29 | C29_string_source | PropText.v | closed |
| C30 | C30_string_exact | PropText.v | closed |
| C30 | C30_file_exact | PropText.v | closed |
| C31 | C31_md5 | PropMd5.v | closed |
| C31 | C31_any_feeding | PropMd5.v | closed |
| C32 | C32_contents | PropTwiddle.v | `ClassicalDedekindReals.sig_forall_dec`, `ClassicalDedekindReals.sig_not_dec`, `FunctionalExtensionality.functional_extensionality_dep` |
| C32 | C32_correct_table | PropTwiddle.v | `ClassicalDedekindReals.sig_forall_dec`, `ClassicalDedekindReals.sig_not_dec`, `FunctionalExtensionality.functional_extensionality_dep` |
| C32 | C32_correct_values | PropTwiddle.v | `ClassicalDedekindReals.sig_forall_dec`, `ClassicalDedekindReals.sig_not_dec`, `FunctionalExtensionality.functional_extensionality_dep` |
| C32 | C32_freed_when_unused | PropTwiddle.v | `ClassicalDedekindReals.sig_forall_dec`, `ClassicalDedekindReals.sig_not_dec`, `FunctionalExtensionality.functional_extensionality_dep` |
| C32 | C32_can_sleep | PropTwiddle.v | `ClassicalDedekindReals.sig_forall_dec`, `ClassicalDedekindReals.sig_not_dec`, `FunctionalExtensionality.functional_extensionality_dep` |
| C32 | C32_can_wake | PropTwiddle.v | `ClassicalDedekindReals.sig_forall_dec`, `ClassicalDedekindReals.sig_not_dec`, `FunctionalExtensionality.functional_extensionality_dep` |
| C32 | C32_ct_legal | PropTwiddle.v | closed |
| C33 | C33_real_cexp | PropTrig.v | `ClassicalDedekindReals.sig_forall_dec`, `ClassicalDedekindReals.sig_not_dec`, `FunctionalExtensionality.functional_extensionality_dep` |
| C33 | C33_reduced_angle | PropTrig.v | `ClassicalDedekindReals.sig_forall_dec`, `ClassicalDedekindReals.sig_not_dec`, `FunctionalExtensionality.functional_extensionality_dep` |
| C33 | C33_cexp | PropTrig.v | `ClassicalDedekindReals.sig_forall_dec`, `ClassicalDedekindReals.sig_not_dec`, `FunctionalExtensionality.functional_extensionality_dep` |
| C33 | C33_rotate | PropTrig.v | `ClassicalDedekindReals.sig_forall_dec`, `ClassicalDedekindReals.sig_not_dec`, `FunctionalExtensionality.functional_extensionality_dep` |
| C33 | C33_table_size | PropTrig.v | `ClassicalDedekindReals.sig_forall_dec`, `ClassicalDedekindReals.sig_not_dec`, `FunctionalExtensionality.functional_extensionality_dep` |
| C34 | C34_partition | PropThreads.v | closed |
| C34 | C34_one_per_thread | PropThreads.v | closed |
| C35 | C35_deterministic | PropParallel.v | `FunctionalExtensionality.functional_extensionality_dep` |
| C35 | C35_two_schedules_agree | PropParallel.v | `FunctionalExtensionality.functional_extensionality_dep` |
| C35 | C35_concurrent_transforms | PropParallel.v | `ClassicalDedekindReals.sig_forall_dec`, `ClassicalDedekindReals.sig_not_dec`, `FunctionalExtensionality.functional_extensionality_dep` |
| C35 | C35_schedule_exists | PropParallel.v | closed |
| C35 | C35_sequential_plan | PropParallel.v | `ClassicalDedekindReals.sig_forall_dec`, `ClassicalDedekindReals.sig_not_dec`, `FunctionalExtensionality.functional_extensionality_dep` |
| C35 | C35_vector_loop | PropParallel.v | `ClassicalDedekindReals.sig_forall_dec`, `ClassicalDedekindReals.sig_not_dec`, `FunctionalExtensionality.functional_extensionality_dep` |
| C35 | C35_decimation_in_time | PropParallel.v | `ClassicalDedekindReals.sig_forall_dec`, `ClassicalDedekindReals.sig_not_dec`, `FunctionalExtensionality.functional_extensionality_dep` |
| C35 | C35_decimation_in_frequency | PropParallel.v | `ClassicalDedekindReals.sig_forall_dec`, `ClassicalDedekindReals.sig_not_dec`, `FunctionalExtensionality.functional_extensionality_dep` |
| C36 | C36_refines_fork_join | PropThreads.v | closed |
| C36 | C36_no_undefined_behaviour | PropThreads.v | closed |
| C36 | C36_no_deadlock | PropThreads.v | closed |
| C36 | C36_terminates | PropThreads.v | closed |
| C36 | C36_idle_workers | PropThreads.v | closed |
| C36 | C36_one_worker_per_block | PropThreads.v | closed |
| C36 | C36_cleanup | PropThreads.v | closed |
| C36 | C36_complete | PropThreads.v | closed |
| C37 | C37_exactly_owned | PropPlanner.v | closed |
| C37 | C37_no_undefined_behaviour | PropPlanner.v | closed |
| C37 | C37_plans_stay | PropPlanner.v | closed |
| C37 | C37_cleanup | PropPlanner.v | closed |
| C38 | C38_allocated_memory | PropAlloc.v | closed |
| C38 | C38_malloc | PropAlloc.v | closed |
| C38 | C38_free | PropAlloc.v | closed |
| C38 | C38_free_null | PropAlloc.v | closed |
| C38 | C38_no_leak | PropAlloc.v | closed |
| C38 | C38_stack_malloc | PropAlloc.v | closed |
| C38 | C38_alignment_of | PropAlloc.v | closed |
| C38 | C38_malloc_plain | PropAlloc.v | closed |
| C39 | C39_guru_r2r | PropR2R.v | `ClassicalDedekindReals.sig_forall_dec`, `ClassicalDedekindReals.sig_not_dec`, `FunctionalExtensionality.functional_extensionality_dep` |
| C39 | C39_many_r2r | PropR2R.v | `ClassicalDedekindReals.sig_forall_dec`, `ClassicalDedekindReals.sig_not_dec`, `FunctionalExtensionality.functional_extensionality_dep` |
| C39 | C39_plan_r2r | PropR2R.v | `ClassicalDedekindReals.sig_forall_dec`, `ClassicalDedekindReals.sig_not_dec`, `FunctionalExtensionality.functional_extensionality_dep` |
| C39 | C39_plan_r2r_1d | PropR2R.v | `ClassicalDedekindReals.sig_forall_dec`, `ClassicalDedekindReals.sig_not_dec`, `FunctionalExtensionality.functional_extensionality_dep` |
| C39 | C39_null | PropR2R.v | `ClassicalDedekindReals.sig_forall_dec`, `ClassicalDedekindReals.sig_not_dec`, `FunctionalExtensionality.functional_extensionality_dep` |
| C39 | C39_inplace_transposed_refuted | PropR2R.v | `ClassicalDedekindReals.sig_forall_dec`, `ClassicalDedekindReals.sig_not_dec`, `FunctionalExtensionality.functional_extensionality_dep` |
| C40 | C40_split_r2c | PropR2C.v | `ClassicalDedekindReals.sig_forall_dec`, `ClassicalDedekindReals.sig_not_dec`, `FunctionalExtensionality.functional_extensionality_dep` |
| C40 | C40_split_c2r | PropR2C.v | `ClassicalDedekindReals.sig_forall_dec`, `ClassicalDedekindReals.sig_not_dec`, `FunctionalExtensionality.functional_extensionality_dep` |
| C40 | C40_guru_r2c | PropR2C.v | `ClassicalDedekindReals.sig_forall_dec`, `ClassicalDedekindReals.sig_not_dec`, `FunctionalExtensionality.functional_extensionality_dep` |
| C40 | C40_guru_c2r | PropR2C.v | `ClassicalDedekindReals.sig_forall_dec`, `ClassicalDedekindReals.sig_not_dec`, `FunctionalExtensionality.functional_extensionality_dep` |
| C40 | C40_many_r2c | PropR2C.v | `ClassicalDedekindReals.sig_forall_dec`, `ClassicalDedekindReals.sig_not_dec`, `FunctionalExtensionality.functional_extensionality_dep` |
| C40 | C40_many_c2r | PropR2C.v | `ClassicalDedekindReals.sig_forall_dec`, `ClassicalDedekindReals.sig_not_dec`, `FunctionalExtensionality.functional_extensionality_dep` |
| C40 | C40_plan_dft_r2c | PropR2C.v | `ClassicalDedekindReals.sig_forall_dec`, `ClassicalDedekindReals.sig_not_dec`, `FunctionalExtensionality.functional_extensionality_dep` |
| C40 | C40_plan_dft_c2r | PropR2C.v | `ClassicalDedekindReals.sig_forall_dec`, `ClassicalDedekindReals.sig_not_dec`, `FunctionalExtensionality.functional_extensionality_dep` |
| C40 | C40_r2c_1d | PropR2C.v | `ClassicalDedekindReals.sig_forall_dec`, `ClassicalDedekindReals.sig_not_dec`, `FunctionalExtensionality.functional_extensionality_dep` |
| C40 | C40_c2r_1d | PropR2C.v | `ClassicalDedekindReals.sig_forall_dec`, `ClassicalDedekindReals.sig_not_dec`, `FunctionalExtensionality.functional_extensionality_dep` |
| C40 | C40_spectrum_hermitian | PropR2C.v | `ClassicalDedekindReals.sig_forall_dec`, `ClassicalDedekindReals.sig_not_dec`, `FunctionalExtensionality.functional_extensionality_dep` |
| C40 | C40_roundtrip | PropR2C.v | `ClassicalDedekindReals.sig_forall_dec`, `ClassicalDedekindReals.sig_not_dec`, `FunctionalExtensionality.functional_extensionality_dep` |
| C40 | C40_halfcomplex | PropR2C.v | `ClassicalDedekindReals.sig_forall_dec`, `ClassicalDedekindReals.sig_not_dec`, `FunctionalExtensionality.functional_extensionality_dep` |
| C40 | C40_halfcomplex_inverse | PropR2C.v | `ClassicalDedekindReals.sig_forall_dec`, `ClassicalDedekindReals.sig_not_dec`, `FunctionalExtensionality.functional_extensionality_dep` |
| C40 | C40_halfcomplex_roundtrip | PropR2C.v | `ClassicalDedekindReals.sig_forall_dec`, `ClassicalDedekindReals.sig_not_dec`, `FunctionalExtensionality.functional_extensionality_dep` |
| C40 | C40_null | PropR2C.v | `ClassicalDedekindReals.sig_forall_dec`, `ClassicalDedekindReals.sig_not_dec`, `FunctionalExtensionality.functional_extensionality_dep` |
| C40 | C40_inplace_dist_refuted | PropR2C.v | `ClassicalDedekindReals.sig_forall_dec`, `ClassicalDedekindReals.sig_not_dec`, `FunctionalExtensionality.functional_extensionality_dep` |
| C41 | C41_blocks | PropMpi.v | closed |
| C41 | C41_sum | PropMpi.v | closed |
| C41 | C41_default_block | PropMpi.v | closed |
| C41 | C41_guru | PropMpi.v | closed |
| C41 | C41_slabs | PropMpi.v | closed |
| C41 | C41_zero_refuted | PropMpi.v | closed |
| C41 | C41_full_output_block_refuted | PropMpi.v | closed |
| C42 | C42_schedule | PropMpiTrans.v | closed |
| C42 | C42_exchange | PropMpiTrans.v | closed |
| C43 | C43_estimate_planner | PropPlanner.v | closed |
| C43 | C43_estimate | PropPlanner.v | closed |
| C44 | C44_transpose | PropMpiDist.v | closed |
| C45 | C45_generated_dft | PropGenfft.v | `ClassicalDedekindReals.sig_forall_dec`, `ClassicalDedekindReals.sig_not_dec`, `FunctionalExtensionality.functional_extensionality_dep` |
| C45 | C45_generated_dft_in_bounds | PropGenfft.v | `ClassicalDedekindReals.sig_forall_dec`, `ClassicalDedekindReals.sig_not_dec`, `FunctionalExtensionality.functional_extensionality_dep` |
| C45 | C45_settings_irrelevant | PropGenfft.v | `ClassicalDedekindReals.sig_forall_dec`, `ClassicalDedekindReals.sig_not_dec`, `FunctionalExtensionality.functional_extensionality_dep` |
| C45 | C45_generated_roundtrip | PropGenfft.v | `ClassicalDedekindReals.sig_forall_dec`, `ClassicalDedekindReals.sig_not_dec`, `FunctionalExtensionality.functional_extensionality_dep` |
| C46 | C46_notw | PropGenreal.v | `ClassicalDedekindReals.sig_forall_dec`, `ClassicalDedekindReals.sig_not_dec`, `FunctionalExtensionality.functional_extensionality_dep` |
| C46 | C46_r2cf | PropGenreal.v | `ClassicalDedekindReals.sig_forall_dec`, `ClassicalDedekindReals.sig_not_dec`, `FunctionalExtensionality.functional_extensionality_dep` |
| C46 | C46_r2cfII | PropGenreal.v | `ClassicalDedekindReals.sig_forall_dec`, `ClassicalDedekindReals.sig_not_dec`, `FunctionalExtensionality.functional_extensionality_dep` |
| C46 | C46_r2cb | PropGenreal.v | `ClassicalDedekindReals.sig_forall_dec`, `ClassicalDedekindReals.sig_not_dec`, `FunctionalExtensionality.functional_extensionality_dep` |
| C46 | C46_r2cbIII | PropGenreal.v | `ClassicalDedekindReals.sig_forall_dec`, `ClassicalDedekindReals.sig_not_dec`, `FunctionalExtensionality.functional_extensionality_dep` |
| C46 | C46_r2r | PropGenreal.v | `ClassicalDedekindReals.sig_forall_dec`, `ClassicalDedekindReals.sig_not_dec`, `FunctionalExtensionality.functional_extensionality_dep` |
| C47 | C47_row_length | PropGentwid.v | closed |
| C47 | C47_table_rows | PropGentwid.v | `ClassicalDedekindReals.sig_forall_dec`, `ClassicalDedekindReals.sig_not_dec`, `FunctionalExtensionality.functional_extensionality_dep` |
| C47 | C47_twiddle | PropGentwid.v | `ClassicalDedekindReals.sig_forall_dec`, `ClassicalDedekindReals.sig_not_dec`, `FunctionalExtensionality.functional_extensionality_dep` |
| C47 | C47_twidsq | PropGentwid.v | `ClassicalDedekindReals.sig_forall_dec`, `ClassicalDedekindReals.sig_not_dec`, `FunctionalExtensionality.functional_extensionality_dep` |
| C47 | C47_hc2hc_dit | PropGentwid.v | `ClassicalDedekindReals.sig_forall_dec`, `ClassicalDedekindReals.sig_not_dec`, `FunctionalExtensionality.functional_extensionality_dep` |
| C47 | C47_hc2hc_dif | PropGentwid.v | `ClassicalDedekindReals.sig_forall_dec`, `ClassicalDedekindReals.sig_not_dec`, `FunctionalExtensionality.functional_extensionality_dep` |
| C47 | C47_hc2c_dit | PropGentwid.v | `ClassicalDedekindReals.sig_forall_dec`, `ClassicalDedekindReals.sig_not_dec`, `FunctionalExtensionality.functional_extensionality_dep` |
| C47 | C47_hc2c_dif | PropGentwid.v | `ClassicalDedekindReals.sig_forall_dec`, `ClassicalDedekindReals.sig_not_dec`, `FunctionalExtensionality.functional_extensionality_dep` |
| C47 | C47_hc2cdft_dit | PropGentwid.v | `ClassicalDedekindReals.sig_forall_dec`, `ClassicalDedekindReals.sig_not_dec`, `FunctionalExtensionality.functional_extensionality_dep` |
| C47 | C47_hc2cdft_dif | PropGentwid.v | `ClassicalDedekindReals.sig_forall_dec`, `ClassicalDedekindReals.sig_not_dec`, `FunctionalExtensionality.functional_extensionality_dep` |
| C47 | C47_is_kernel | PropGentwid.v | `ClassicalDedekindReals.sig_forall_dec`, `ClassicalDedekindReals.sig_not_dec`, `FunctionalExtensionality.functional_extensionality_dep` |
| C47 | C47_simd_notw | PropGentwid.v | `ClassicalDedekindReals.sig_forall_dec`, `ClassicalDedekindReals.sig_not_dec`, `FunctionalExtensionality.functional_extensionality_dep` |
| C47 | C47_simd_twiddle | PropGentwid.v | `ClassicalDedekindReals.sig_forall_dec`, `ClassicalDedekindReals.sig_not_dec`, `FunctionalExtensionality.functional_extensionality_dep` |
| C47 | C47_log3_size1_refuted | PropGentwid.v | `ClassicalDedekindReals.sig_forall_dec`, `ClassicalDedekindReals.sig_not_dec`, `FunctionalExtensionality.functional_extensionality_dep` |
| C48 | C48_algsimp | PropGenalg.v | `ClassicalDedekindReals.sig_forall_dec`, `FunctionalExtensionality.functional_extensionality_dep` |
| C48 | C48_computes | PropGenalg.v | `ClassicalDedekindReals.sig_forall_dec`, `FunctionalExtensionality.functional_extensionality_dep` |
| C48 | C48_multiplicity_refuted | PropGenalg.v | `ClassicalDedekindReals.sig_forall_dec`, `FunctionalExtensionality.functional_extensionality_dep` |
| C48 | C48_split_refuted | PropGenalg.v | `ClassicalDedekindReals.sig_forall_dec`, `FunctionalExtensionality.functional_extensionality_dep` |
| C49 | C49_transpose | PropGentrans.v | `ClassicalDedekindReals.sig_forall_dec`, `FunctionalExtensionality.functional_extensionality_dep` |
| C49 | C49_round | PropGentrans.v | `ClassicalDedekindReals.sig_forall_dec`, `FunctionalExtensionality.functional_extensionality_dep` |
| C49 | C49_algsimp | PropGentrans.v | `ClassicalDedekindReals.sig_forall_dec`, `FunctionalExtensionality.functional_extensionality_dep` |
| C49 | C49_computes | PropGentrans.v | `ClassicalDedekindReals.sig_forall_dec`, `FunctionalExtensionality.functional_extensionality_dep` |
| C49 | C49_right_constant_refuted | PropGentrans.v | `ClassicalDedekindReals.sig_forall_dec`, `FunctionalExtensionality.functional_extensionality_dep` |
| C49 | C49_unshared_refuted | PropGentrans.v | `ClassicalDedekindReals.sig_forall_dec`, `FunctionalExtensionality.functional_extensionality_dep` |
| C50 | C50_alist | PropGenalist.v | `ClassicalDedekindReals.sig_forall_dec`, `FunctionalExtensionality.functional_extensionality_dep` |
| C50 | C50_loads | PropGenalist.v | `ClassicalDedekindReals.sig_forall_dec`, `FunctionalExtensionality.functional_extensionality_dep` |
| C50 | C50_once_refuted | PropGenalist.v | `ClassicalDedekindReals.sig_forall_dec`, `FunctionalExtensionality.functional_extensionality_dep` |
| C51 | C51_order | PropGensched.v | closed |
| C51 | C51_codelet | PropGensched.v | `ClassicalDedekindReals.sig_forall_dec`, `FunctionalExtensionality.functional_extensionality_dep` |
| C51 | C51_type1_refuted | PropGensched.v | closed |
| C51 | C51_inline_loads_refuted | PropGensched.v | `ClassicalDedekindReals.sig_forall_dec`, `FunctionalExtensionality.functional_extensionality_dep` |
| C52 | C52_text | PropGenannot.v | closed |
| C52 | C52_codelet | PropGenannot.v | `ClassicalDedekindReals.sig_forall_dec`, `FunctionalExtensionality.functional_extensionality_dep` |
| C53 | C53_expression | PropGenprint.v | `ClassicalDedekindReals.sig_forall_dec`, `FunctionalExtensionality.functional_extensionality_dep` |
| C53 | C53_text | PropGenprint.v | `ClassicalDedekindReals.sig_forall_dec`, `Classical_Prop.classic`, `FunctionalExtensionality.functional_extensionality_dep` |
| C53 | C53_codelet | PropGenprint.v | `ClassicalDedekindReals.sig_forall_dec`, `Classical_Prop.classic`, `FunctionalExtensionality.functional_extensionality_dep` |
| C54 | C54_notw | PropGenlink.v | `ClassicalDedekindReals.sig_forall_dec`, `ClassicalDedekindReals.sig_not_dec`, `Classical_Prop.classic`, `FunctionalExtensionality.functional_extensionality_dep` |
| C54 | C54_twiddle | PropGenlink.v | `ClassicalDedekindReals.sig_forall_dec`, `ClassicalDedekindReals.sig_not_dec`, `Classical_Prop.classic`, `FunctionalExtensionality.functional_extensionality_dep` |
| C55 | C55_r2r | PropGenlink2.v | `ClassicalDedekindReals.sig_forall_dec`, `ClassicalDedekindReals.sig_not_dec`, `Classical_Prop.classic`, `FunctionalExtensionality.functional_extensionality_dep` |
| C55 | C55_twidsq | PropGenlink2.v | `ClassicalDedekindReals.sig_forall_dec`, `ClassicalDedekindReals.sig_not_dec`, `Classical_Prop.classic`, `FunctionalExtensionality.functional_extensionality_dep` |
| C55 | C55_hc2hc | PropGenlink2.v | `ClassicalDedekindReals.sig_forall_dec`, `ClassicalDedekindReals.sig_not_dec`, `Classical_Prop.classic`, `FunctionalExtensionality.functional_extensionality_dep` |
| C56 | C56_r2cb | PropGenlink3.v | `ClassicalDedekindReals.sig_forall_dec`, `ClassicalDedekindReals.sig_not_dec`, `Classical_Prop.classic`, `FunctionalExtensionality.functional_extensionality_dep` |
| C57 | C57_r2cf_partial | PropGenlink4.v | `ClassicalDedekindReals.sig_forall_dec`, `ClassicalDedekindReals.sig_not_dec`, `Classical_Prop.classic`, `FunctionalExtensionality.functional_extensionality_dep` |
| C57 | C57_dropped_partial | PropGenlink4.v | `ClassicalDedekindReals.sig_forall_dec`, `ClassicalDedekindReals.sig_not_dec`, `FunctionalExtensionality.functional_extensionality_dep` |
| C57 | C57_never_stored_partial | PropGenlink4.v | `ClassicalDedekindReals.sig_forall_dec`, `ClassicalDedekindReals.sig_not_dec`, `FunctionalExtensionality.functional_extensionality_dep` |
| C57 | C57_r2cf_whole_partial | PropGenlink4.v | `ClassicalDedekindReals.sig_forall_dec`, `ClassicalDedekindReals.sig_not_dec`, `Classical_Prop.classic`, `FunctionalExtensionality.functional_extensionality_dep` |
