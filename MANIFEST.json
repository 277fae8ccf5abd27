{
 "claims": [
  {
   "property": "C01",
   "status": "proved",
   "theorems": [
    "C01_exclusive",
    "C01_writer_refuses",
    "C01_reader_refuses",
    "C01_restore_refused",
    "C01_readers_share"
   ],
   "note": "histories of any length; exclusion for histories where two-access calls do not fail half way (C05 findings)"
  },
  {
   "property": "C02",
   "status": "proved",
   "theorems": [
    "C02_refinement",
    "C02_frame",
    "C02_set_array_copy",
    "C02_set_array_pointer",
    "C02_shared_lasts",
    "C02_set_value",
    "C02_write",
    "C02_read"
   ],
   "note": "refinement of the client view plus frame and per-call laws; host memory, ref backend"
  },
  {
   "property": "C03",
   "status": "proved",
   "theorems": [
    "C03_no_undefined_behaviour",
    "C03_user_kept",
    "C03_owned",
    "C03_one_owner",
    "C03_no_leak",
    "C03_given",
    "C03_freed_once",
    "C03_zero_length_leak_refuted"
   ],
   "note": "ref backend heap model; use after free and double free are the RUB outcome"
  },
  {
   "property": "C04",
   "status": "proved",
   "theorems": [
    "C04_same_state",
    "C04_cache",
    "C04_unchanged",
    "C04_take_refuted",
    "C04_shared_write_refuted"
   ],
   "note": "64-bit wrap explicit"
  },
  {
   "property": "C05",
   "status": "proved",
   "theorems": [
    "C05_unchanged",
    "C05_contents",
    "C05_destroy_refuted",
    "C05_destroy_negative_refuted",
    "C05_axpy_refuted",
    "C05_axpby_refuted",
    "C05_mult_refuted",
    "C05_copy_strided_refuted",
    "C05_copy_self_refuted",
    "C05_copy_strided_self_refuted",
    "C05_mult_contents_refuted",
    "C05_device_write_refuted"
   ],
   "note": "guards exact; each exception is a refuted theorem"
  },
  {
   "property": "C06",
   "status": "proved",
   "theorems": [
    "C06_scale",
    "C06_reciprocal",
    "C06_axpy",
    "C06_axpby",
    "C06_pointwise_mult",
    "C06_copy",
    "C06_set_value_strided",
    "C06_copy_strided",
    "C06_norm",
    "C03_no_undefined_behaviour",
    "C06_strided_refuted"
   ],
   "note": "scalars in any commutative ring; in-bounds is C03_no_undefined_behaviour"
  },
  {
   "property": "C07",
   "status": "proved",
   "theorems": [
    "C07_safe",
    "C07_exact",
    "C07_no_dangling",
    "C07_count",
    "C07_destroy",
    "C07_copy",
    "C07_all_freed",
    "C07_parent_refuted",
    "C07_parent_basis_refuted",
    "C07_copy_of_copy_refuted",
    "C07_fields_refuted",
    "C07_incomplete_refuted",
    "C07_twice_refuted",
    "C07_contract_refuted"
   ],
   "note": "All of interface/ as far as counts and pointers between objects go; work vectors, fallback operators and assembly data not included. Guards and their refutations as in the statement."
  },
  {
   "property": "C08",
   "status": "proved",
   "theorems": [
    "C08_gather",
    "C08_layout_unblocked",
    "C08_points_gather",
    "C08_layout_blocked_refuted",
    "C08_unsigned_block_refuted"
   ],
   "note": "ring arithmetic; ref/opt kernels, every block size"
  },
  {
   "property": "C09",
   "status": "proved",
   "theorems": [
    "C09_transpose_adds",
    "C09_adjoint",
    "C09_adjoint_unblocked",
    "C09_points_adjoint"
   ],
   "note": "ring arithmetic"
  },
  {
   "property": "C10",
   "status": "proved",
   "theorems": [
    "C10_in_bounds",
    "C10_length_errors",
    "C10_check_exact",
    "C10_checked_safe",
    "C10_block_in_bounds",
    "C10_curl_one_node_refuted",
    "C10_block_index_refuted",
    "C10_blocked_check_refuted",
    "C10_strides_refuted",
    "C10_unchecked_backend_refuted",
    "C10_points_refuted",
    "C10_points_empty_refuted",
    "C10_zero_block_refuted"
   ],
   "note": "guards exact for the checking backend; refutations record calls the library accepts and that leave the arrays"
  },
  {
   "property": "C11",
   "status": "proved",
   "theorems": [
    "C11_blocked_gather",
    "C11_blocked_transpose",
    "C11_block_gather",
    "C11_blocks_transpose"
   ],
   "note": ""
  },
  {
   "property": "C12",
   "status": "proved",
   "theorems": [
    "C12_multiplicity",
    "C12_curl_refuted"
   ],
   "note": "count is a natural number mapped into the ring; curl-oriented refuted"
  },
  {
   "property": "C13",
   "status": "proved",
   "theorems": [
    "C13_ref",
    "C13_opt",
    "C13_avx",
    "C13_avx_need",
    "C13_avx_bounds_refuted",
    "C13_strided",
    "C13_strided_transpose_add",
    "C13_kernels_ok",
    "C13_strided_overwrite_refuted"
   ],
   "note": "ref/opt/AVX kernels over any commutative ring, all sizes; strided apply for any kernel meeting the contract; two findings"
  },
  {
   "property": "C14",
   "status": "proved",
   "theorems": [
    "C14_created",
    "C14_created_nontensor",
    "C14_forward",
    "C14_backward",
    "C14_reported_tensor",
    "C14_weights"
   ],
   "note": "Tensor and non-tensor; C14_created and C14_created_nontensor discharge well-formedness from the constructors, under the guards of the statement"
  },
  {
   "property": "C15",
   "status": "proved",
   "theorems": [
    "C15_adjoint"
   ],
   "note": "All modes, all kernels meeting kernel_ok"
  },
  {
   "property": "C16",
   "status": "proved",
   "theorems": [
    "C16_overwrite",
    "C16_add",
    "C16_add_notranspose",
    "C16_add_interp_refuted",
    "C16_add_grad_refuted"
   ],
   "note": "Guard: not collocated; the refutations show the finding"
  },
  {
   "property": "C17",
   "status": "proved",
   "theorems": [
    "C17_safe",
    "C17_safe_add",
    "C17_points_safe",
    "C17_missing_refuted",
    "C17_weight_empty_refuted",
    "C17_points_or_refuted",
    "C17_points_components_refuted"
   ],
   "note": "Positive safety theorems plus the findings"
  },
  {
   "property": "C18",
   "status": "proved",
   "theorems": [
    "C18_matmul",
    "C18_qr",
    "C18_qr_iff",
    "C18_qr_unsupported",
    "C18_apply_undo",
    "C18_pinv",
    "C18_pinv_iff",
    "C18_zero_refuted",
    "C18_collo_grad",
    "C18_cheb_interp",
    "C18_created"
   ],
   "note": "over the reals of the standard library; sqrt and copysign as on exact numbers; a division by zero is UB; _refuted and _iff are the finding"
  },
  {
   "property": "C19",
   "status": "proved",
   "theorems": [
    "C19_values",
    "C19_derivatives",
    "C19_second_kind",
    "C19_derivative_linear_part",
    "C19_one_node_refuted"
   ],
   "note": "Over any commutative ring"
  },
  {
   "property": "C20",
   "status": "proved",
   "theorems": [
    "C20_add_input",
    "C20_add_output",
    "C20_unique",
    "C20_order",
    "C20_rejected",
    "C20_frozen",
    "C20_seventeenth_refuted"
   ],
   "note": "All histories of field, query, apply, source and fallback calls; seventeenth field is undefined behaviour (refuted)."
  },
  {
   "property": "C21",
   "status": "proved",
   "theorems": [
    "C21_accept",
    "C21_split",
    "C21_absolute",
    "C21_fallback",
    "C21_fallback_refuted",
    "C21_root_refuted"
   ],
   "note": "All source strings, file systems, root lists and call histories; two findings refuted."
  },
  {
   "property": "C22",
   "status": "proved",
   "theorems": [
    "C22_init",
    "C22_order",
    "C22_success",
    "C22_register",
    "C22_gallery",
    "C22_gallery_exact",
    "C22_help_refuted",
    "C22_register_refuted",
    "C22_tie_refuted",
    "C22_shadow_refuted"
   ],
   "note": "All tables, priorities and requests; four findings refuted."
  },
  {
   "property": "C23",
   "status": "proved",
   "theorems": [
    "C23_refines",
    "C23_exclusive",
    "C23_readback",
    "C23_frame",
    "C23_state",
    "C23_mismatch",
    "C23_null_label",
    "C23_labels",
    "C23_dtor_first",
    "C23_set_with_reader_refuted",
    "C23_destroy_with_reader_refuted",
    "C23_copy_self_refuted",
    "C23_dtor_first_refuted",
    "C23_dtor_fails_refuted",
    "C23_size_refuted",
    "C23_range_refuted"
   ],
   "note": "CtxModel is interface/ceed-qfunctioncontext.c over the ref backend; refinement to CtxSpec; exclusivity over all histories of the concrete code; field laws over all histories that respect the abstract machine."
  },
  {
   "property": "C24",
   "status": "proved",
   "theorems": [
    "C24_get",
    "C24_restore",
    "C24_bound",
    "C24_context",
    "C24_delegate_refuted",
    "C24_restore_first_refuted",
    "C24_growing_refuted"
   ],
   "note": "Any history; vectors are identifiers with lengths and reference counts. Findings refuted."
  },
  {
   "property": "C25",
   "status": "proved",
   "theorems": [
    "C25_lookup",
    "C25_second_refuted",
    "C25_lookup_refuted"
   ],
   "note": "All registration sequences; findings refuted."
  },
  {
   "property": "C26",
   "status": "proved",
   "theorems": [
    "C26_ready",
    "C26_complete",
    "C26_order",
    "C26_twice_refuted",
    "C26_wiped_refuted"
   ],
   "note": "Histories of SetField, CheckReady and QFunction additions; guards as in the statement, findings as _refuted"
  },
  {
   "property": "C27",
   "status": "proved",
   "theorems": [
    "C27_flag_never_set",
    "C27_qfunction",
    "C27_sizes",
    "C27_set_refuted",
    "C27_add_refuted"
   ],
   "note": "Positive part: QFunction and sizes stay fixed; the documented rejection is refuted"
  },
  {
   "property": "C28",
   "status": "proved",
   "theorems": [
    "C28_apply_add",
    "C28_identity_passive_refuted",
    "C28_nodes_refuted"
   ],
   "note": "All operators meeting op_wf (any numbers of fields, elements, points; QFunctions as arbitrary pointwise functions), both backends; two findings refuted."
  },
  {
   "property": "C29",
   "status": "proved",
   "theorems": [
    "C29_apply",
    "C29_composite_add",
    "C29_order",
    "C29_composite_apply",
    "C29_no_elements",
    "C29_nested_refuted"
   ],
   "note": "Single operators, trees of composite operators of any depth; nested Apply refuted."
  },
  {
   "property": "C30",
   "status": "proved",
   "theorems": [
    "C30_history",
    "C30_taken_refuted"
   ],
   "note": "Induction over histories of set, take, ApplyAdd and Apply; application while the array is taken refuted."
  },
  {
   "property": "C31",
   "status": "proved",
   "theorems": [
    "C31_sharing",
    "C31_inputs_none_refuted",
    "C31_inputs_weight_refuted",
    "C31_outputs_none_refuted",
    "C31_outputs_lost_refuted",
    "C31_outputs_collocated_refuted"
   ],
   "note": "Any sharing pattern within the guards; five findings refuted."
  },
  {
   "property": "C32",
   "status": "proved",
   "theorems": [
    "C32_blocked"
   ],
   "note": "Any block size; both sides may use different contraction kernels."
  },
  {
   "property": "C33",
   "status": "proved",
   "theorems": [
    "C33_represents",
    "C33_assemble",
    "C33_apply",
    "C33_errors",
    "C33_stale_refuted",
    "C33_shared_refuted",
    "C33_empty_refuted"
   ],
   "note": "Reference and blocked backends, any block size and history; three findings refuted."
  },
  {
   "property": "C34",
   "status": "proved",
   "theorems": [
    "C34_call",
    "C34_coarse",
    "C34_composite",
    "C34_strip",
    "C34_strip_refuted"
   ],
   "note": "Any history over any number of operators, reference and blocked backends; nested strip finding refuted."
  },
  {
   "property": "C35",
   "status": "proved",
   "theorems": [
    "C35_symbolic",
    "C35_matrix",
    "C35_apply",
    "C35_apply_composite",
    "C35_errors",
    "C35_two_grad_refuted"
   ],
   "note": "Positions valid (C35_symbolic); matrix times any vector equals what the operators add, after any history of calls (C35_matrix), hence equals CeedOperatorApply of the single operator (C35_apply) and of the composite one (C35_apply_composite); rejected cases (C35_errors). Standard, strided, oriented and curl-oriented restrictions; all bases, reference, blocked, AVX backends. Finding: C35_two_grad_refuted."
  },
  {
   "property": "C36",
   "status": "proved",
   "theorems": [
    "C36_add_diagonal",
    "C36_diagonal",
    "C36_apply",
    "C36_add_blocks",
    "C36_blocks",
    "C36_block_symbolic",
    "C36_errors",
    "C36_curl_refuted",
    "C36_repeated_refuted",
    "C36_bases_refuted",
    "C36_none_refuted",
    "C36_empty_refuted",
    "C36_block_layout_refuted",
    "C36_block_pairs_refuted"
   ],
   "note": "Diagonals of trees of operators after any history of calls, added and overwritten (C36_add_diagonal, C36_diagonal), equal to the application to unit vectors (C36_apply); point blocks (C36_add_blocks, C36_blocks) and their rows and columns (C36_block_symbolic); errors (C36_errors). Findings are the _refuted theorems."
  },
  {
   "property": "C37",
   "status": "proved",
   "theorems": [
    "C37_counts",
    "C37_skip_ignored",
    "C37_skip_refuted"
   ],
   "note": "The count is proved for every composite operator within the stated guards, with the skip list shown to have no effect; C37_skip_refuted gives an operator where a skipped sub-operator is counted. A vector longer than the L-size is read out of bounds in the code and is outside the statement."
  },
  {
   "property": "C38",
   "status": "proved",
   "theorems": [
    "C38_level",
    "C38_adjoint",
    "C38_prolong",
    "C38_blocked_sign_refuted"
   ],
   "note": "fine restriction not curl-oriented (the code refuses those); H1 coarse-to-fine basis; scalars any commutative ring, reciprocal any function"
  },
  {
   "property": "C39",
   "status": "proved",
   "theorems": [
    "C39_label",
    "C39_set",
    "C39_set_works",
    "C39_get",
    "C39_single",
    "C39_conflict_refuted",
    "C39_nested_refuted",
    "C39_added_refuted",
    "C39_late_refuted",
    "C39_halfway_refuted",
    "C39_replaced_refuted",
    "C39_shared_refuted"
   ],
   "note": "Model of the label routines over any number of contexts, non-composite operators and one composite operator; positive theorems over all histories plus one refutation per finding. Fortran contexts and leaks of label objects are not modelled."
  },
  {
   "property": "C40",
   "status": "proved",
   "theorems": [
    "C40_single",
    "C40_consistent",
    "C40_settles",
    "C40_conflict",
    "C40_composite",
    "C40_stale_refuted",
    "C40_late_refuted",
    "C40_empty_refuted",
    "C40_rejected_refuted"
   ],
   "note": "Single operators over all histories, trees of any depth, composites over all histories"
  },
  {
   "property": "C41",
   "status": "proved",
   "theorems": [
    "C41_expansion",
    "C41_no_cycle",
    "C41_succeeds",
    "C41_depth",
    "C41_include_line",
    "C41_cycle_refuted",
    "C41_cut_refuted",
    "C41_last_line_refuted",
    "C41_empty_refuted"
   ],
   "note": "Any file system and include graph; text lines compared without indentation and blank lines. Four findings refuted."
  },
  {
   "property": "C42",
   "status": "proved",
   "theorems": [
    "C42_normalize",
    "C42_meaning",
    "C42_canonical",
    "C42_top_refuted",
    "C42_root_refuted",
    "C42_double_slash_refuted"
   ],
   "note": "All absolute paths with any components; three findings refuted."
  },
  {
   "property": "C43",
   "status": "proved",
   "theorems": [
    "C43_forward",
    "C43_backward",
    "C43_adjoint",
    "C43_quadrature",
    "C43_no_points_refuted"
   ],
   "note": "Any commutative ring"
  },
  {
   "property": "C44",
   "status": "proved",
   "theorems": [
    "C44_apply_add",
    "C44_apply",
    "C44_history",
    "C44_in_place_refuted",
    "C44_longer_refuted",
    "C44_outputs_none_refuted"
   ],
   "note": "Opt backend driver (block-wise active restrictions, kept data, block sizes arbitrary) equals the element-wise formula and the reference backend over histories; three findings refuted with witnesses."
  },
  {
   "property": "C45",
   "status": "proved",
   "theorems": [
    "C45_exact",
    "C45_creates",
    "C45_cardinal",
    "C45_collocated",
    "C45_silent_refuted"
   ],
   "note": "Exact real arithmetic. Distinctness of nodes follows from success. Finding: silent success without a basis."
  },
  {
   "property": "C46",
   "status": "proved",
   "theorems": [
    "C46_legendre",
    "C46_gauss",
    "C46_gauss_positive",
    "C46_lobatto",
    "C46_lobatto_one",
    "C46_zero_refuted",
    "C46_newton_refuted"
   ],
   "note": "Exact real arithmetic; convergence of the iterations is not claimed (the stopping rule is). Two findings."
  },
  {
   "property": "C47",
   "status": "proved",
   "theorems": [
    "C47_matrices_tensor",
    "C47_matrices",
    "C47_nested_tensor",
    "C47_nested",
    "C47_refuses",
    "C47_identity",
    "C47_overread_refuted",
    "C47_dims_refuted"
   ],
   "note": "Exact real arithmetic; guards: same dimension, full column rank, nested spaces for the transfer statement."
  },
  {
   "property": "C48",
   "status": "proved",
   "theorems": [
    "C48_identity",
    "C48_scale",
    "C48_scale_context_refuted",
    "C48_mass",
    "C48_poisson",
    "C48_weak_form",
    "C48_singular"
   ],
   "note": "exact real arithmetic; a division by zero is an undefined outcome"
  },
  {
   "property": "C49",
   "status": "proved",
   "theorems": [
    "C49_apply_add",
    "C49_apply",
    "C49_history",
    "C49_inputs_none_refuted",
    "C49_outputs_none_refuted",
    "C49_identity_refuted",
    "C49_no_points_refuted",
    "C49_nodes_none_refuted"
   ],
   "note": "Exact arithmetic; guards as in the statement; five findings."
  },
  {
   "property": "C50",
   "status": "proved",
   "theorems": [
    "C50_assemble",
    "C50_apply",
    "C50_represents",
    "C50_errors",
    "C50_weight_refuted",
    "C50_data_refuted",
    "C50_stale_refuted",
    "C50_outputs_refuted",
    "C50_restriction_refuted"
   ],
   "note": "guarded theorems for all operators and histories; findings as refuted theorems"
  },
  {
   "property": "C51",
   "status": "proved",
   "theorems": [
    "C51_add_diagonal",
    "C51_diagonal",
    "C51_agree",
    "C51_after",
    "C51_errors",
    "C51_passive_refuted",
    "C51_coupling_refuted",
    "C51_orientation_refuted",
    "C51_repeated_refuted"
   ],
   "note": "Diagonal of operators at points on the reference backend, over every commutative ring and history; findings as refuted theorems."
  },
  {
   "property": "C52",
   "status": "proved",
   "theorems": [
    "C52_schur",
    "C52_eigen",
    "C52_two",
    "C52_errors",
    "C52_diagonal_refuted",
    "C52_converge_refuted"
   ],
   "note": "Exact real arithmetic, CEED_EPSILON a positive parameter. Convergence of the iteration is proved for n = 2 only; for other sizes the third outcome, the error of no convergence, is part of the statement. Findings as refuted theorems."
  },
  {
   "property": "C53",
   "status": "proved",
   "theorems": [
    "C53_simdiag",
    "C53_errors",
    "C53_lumped_refuted",
    "C53_ascending_refuted"
   ],
   "note": "exact arithmetic; CEED_EPSILON is an arbitrary positive tolerance; errors documented by two refuted statements"
  },
  {
   "property": "C54",
   "status": "proved",
   "theorems": [
    "C54_create",
    "C54_inverse",
    "C54_element",
    "C54_average",
    "C54_errors",
    "C54_average_refuted",
    "C54_modes_refuted",
    "C54_collocated_refuted"
   ],
   "note": "default implementation; assembled array and layout are inputs (contents: C33); exact arithmetic"
  },
  {
   "property": "C55",
   "status": "proved",
   "theorems": [
    "C55_assemble",
    "C55_apply",
    "C55_same",
    "C55_errors",
    "C55_stale_refuted",
    "C55_shared_refuted"
   ],
   "note": "Assembly block by block with the aliasing of q_vecs and E-vectors; induction over the blocks and over histories; refuted for stale and for shared q_vecs."
  },
  {
   "property": "C56",
   "status": "proved",
   "theorems": [
    "C56_refines",
    "C56_detects",
    "C56_scale_lost_refuted",
    "C56_scale_accused_refuted",
    "C56_state_refuted",
    "C56_recip_refuted",
    "C56_violation_sticks_refuted",
    "C56_lent_write_refuted",
    "C56_lent_destroy_refuted",
    "C56_no_data_refuted"
   ],
   "note": "Same outcomes as the ref backend for every history that keeps the stated rules; last RestoreArrayRead fails iff bytes differ; eight refuted variants without the rules."
  },
  {
   "property": "C57",
   "status": "proved",
   "theorems": [
    "C57_refines",
    "C57_detects",
    "C57_take_while_read_refuted",
    "C57_set_while_read_refuted",
    "C57_failed_set_refuted",
    "C57_null_refuted",
    "C57_dtor_null_refuted",
    "C57_dtor_while_read_refuted",
    "C57_dtor_first_refuted",
    "C57_violation_sticks_refuted",
    "C57_dtor_fails_refuted"
   ],
   "note": "Simulation with the abstract machine of C23 under the stated rules, detection of writes, and one refuted theorem per finding."
  },
  {
   "property": "C58",
   "status": "proved",
   "theorems": [
    "C58_refines",
    "C58_outputs",
    "C58_inputs",
    "C58_context",
    "C58_nan_result_refuted",
    "C58_error_keeps_access_refuted",
    "C58_source_missing_refuted",
    "C58_tail_lost_refuted",
    "C58_read_output_refuted",
    "C58_context_write_refuted",
    "C58_alias_keeps_access_refuted"
   ],
   "note": "refinement of both backends to one specification over whole histories; the certificate of success from any state; findings as _refuted theorems"
  },
  {
   "property": "C59",
   "status": "proved",
   "theorems": [
    "C59_gather",
    "C59_transpose_adds",
    "C59_adjoint",
    "C59_in_bounds",
    "C59_block_gather",
    "C59_multiplicity",
    "C59_layout_gather",
    "C59_layout_transpose",
    "C59_portable",
    "C59_same_as_ref",
    "C59_raw_array_refuted",
    "C59_tail_refuted"
   ],
   "note": "memcheck restrictions over any ring; NaN is an arbitrary scalar; findings as _refuted"
  },
  {
   "property": "C60",
   "status": "proved",
   "theorems": [
    "C60_elem_offset",
    "C60_min_max",
    "C60_esize",
    "C60_one_element",
    "C60_layout_refuted",
    "C60_elem_unchecked_refuted",
    "C60_padding_refuted"
   ],
   "note": "for well-formed offset arrays; findings as _refuted"
  },
  {
   "property": "C61",
   "status": "proved",
   "theorems": [
    "C61_one_parent",
    "C61_one_list",
    "C61_add_exact",
    "C61_add_seen",
    "C61_references",
    "C61_reader_stable",
    "C61_fallback",
    "C61_fallback_defines_refuted",
    "C61_fallback_stale_refuted",
    "C61_refused_leaks_refuted",
    "C61_unmatched_restore_refuted",
    "C61_delegate_reader_refuted",
    "C61_delegate_hides_refuted",
    "C61_destroy_refused_refuted"
   ],
   "note": "All guards are in the statement; the findings are theorems about concrete histories."
  },
  {
   "property": "C62",
   "status": "proved",
   "theorems": [
    "C62_single",
    "C62_none",
    "C62_list_refuted",
    "C62_register_once"
   ],
   "note": "The undefined case is characterised exactly."
  },
  {
   "property": "C63",
   "status": "proved",
   "theorems": [
    "C63_kernel",
    "C63_same_values",
    "C63_interp",
    "C63_transpose_refuted",
    "C63_grad",
    "C63_grad_refuted",
    "C63_grad_passes_refuted",
    "C63_nontensor_refuted",
    "C63_operator",
    "C63_composite",
    "C63_points",
    "C63_overflow_refuted",
    "C63_point_eval_refuted"
   ],
   "note": "Executed counts of the reference kernels against the estimates; the deviations are proved as findings. The collocated-interpolation fast path, the gradient of collocated bases and the Chebyshev evaluation at points are not counted; only the product num_elem*num_qpts is checked for overflow."
  },
  {
   "property": "C64",
   "status": "proved",
   "theorems": [
    "C64_copy",
    "C64_copy_at_points",
    "C64_cached",
    "C64_composite",
    "C64_null_sub_refuted",
    "C64_stale_refuted",
    "C64_no_points_refuted",
    "C64_blank_refuted",
    "C64_attributes_refuted"
   ],
   "note": "The copy succeeds and is faithful for every building history in which no field is set twice; the deviations are proved as findings. dqf/dqfT, the shared assembly data, the name and nested composites are not modelled; points are set after the fields."
  },
  {
   "property": "C65",
   "status": "proved",
   "theorems": [
    "C65_active",
    "C65_leak_refuted",
    "C65_composite_refuted",
    "C65_tensor",
    "C65_by_name",
    "C65_num_args",
    "C65_sub_by_name"
   ],
   "note": "Proved for every building history with the stated guard; the deviations are proved as findings. Names of composite sub-operators are modelled as a list."
  },
  {
   "property": "C66",
   "status": "proved",
   "theorems": [
    "C66_balance",
    "C66_released",
    "C66_held",
    "C66_incomplete_refuted",
    "C66_twice_refuted",
    "C66_refused_refuted"
   ],
   "note": "The exact balance is proved for every history, the full release under the stated guard; the leaks are proved as findings. Counts of the QFunction, sub-operators, assembly data and labels are not modelled."
  },
  {
   "property": "C67",
   "status": "proved",
   "theorems": [
    "C67_defined",
    "C67_once",
    "C67_pointers",
    "C67_handles",
    "C67_released",
    "C67_destroy",
    "C67_sizes",
    "C67_blocked_refuted",
    "C67_failed_refuted",
    "C67_copy_refuted",
    "C67_restore_refuted",
    "C67_refused_refuted",
    "C67_copy_of_copy_refuted",
    "C67_sizes_refuted"
   ],
   "note": "Guarded statement proved for all client histories on the ref backend; the findings in the statement are the _refuted theorems. Allocation failures, at-points restrictions and array contents are not modelled here."
  },
  {
   "property": "C68",
   "status": "proved",
   "theorems": [
    "C68_released",
    "C68_operators",
    "C68_defined",
    "C68_leak",
    "C68_leak_refuted",
    "C68_failed_refuted",
    "C68_interp",
    "C68_interp_h1",
    "C68_dim4_refuted"
   ],
   "note": "References: C68_released (guarded), exact leak C68_leak and finding C68_leak_refuted; failing calls: C68_failed_refuted; operators made: C68_operators; no NULL dereference: C68_defined; size of the matrix: C68_interp, C68_interp_h1, finding C68_dim4_refuted."
  },
  {
   "property": "C69",
   "status": "proved",
   "theorems": [
    "C69_defined",
    "C69_locks",
    "C69_get",
    "C69_direct",
    "C69_count",
    "C69_settings",
    "C69_refused_refuted",
    "C69_writable_refuted",
    "C69_replaced_refuted",
    "C69_same_refuted",
    "C69_reader_refuted"
   ],
   "note": "Guarded statement proved for all client histories; the findings in the statement are the _refuted theorems. Data, Fortran QFunctions, references to QFunctions and allocation failures are not modelled here."
  }
 ]
}
