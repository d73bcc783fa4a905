{
 "claims": [
  {
   "property": "C01",
   "status": "proved",
   "theorems": [
    "C01_components_partition"
   ],
   "note": "For every sequence of init/connect calls with symmetric links."
  },
  {
   "property": "C02",
   "status": "proved",
   "theorems": [
    "C02_component_is_reachable_set",
    "C02_component_none"
   ],
   "note": ""
  },
  {
   "property": "C03",
   "status": "partial",
   "theorems": [
    "C03_one_component_per_node_refuted"
   ],
   "note": "REFUTED: the full statement is false of the code; the theorem gives a witness. With symmetric links it holds (C01)."
  },
  {
   "property": "C10",
   "status": "proved",
   "theorems": [
    "C10_feasibility_decided"
   ],
   "note": "Exact arithmetic with infinities (no rounding). Row-major matrices (the CostMatrix type of rlapjv.h); C13 gives that lap returns."
  },
  {
   "property": "C11",
   "status": "proved",
   "theorems": [
    "C11_assignment_optimal"
   ],
   "note": "Exact arithmetic with infinities (no rounding); row-major matrices."
  },
  {
   "property": "C12",
   "status": "proved",
   "theorems": [
    "C12_duals_certify"
   ],
   "note": "Exact arithmetic with infinities (no rounding); row-major matrices."
  },
  {
   "property": "C13",
   "status": "proved",
   "theorems": [
    "C13_memory_safe",
    "C13_terminates",
    "C13_builds_agree"
   ],
   "note": "Exact arithmetic with infinities (no rounding). Termination of the row-reduction loop over the reals is by a limit argument."
  },
  {
   "property": "C14",
   "status": "partial",
   "theorems": [
    "C14_any_number_of_rows_refuted"
   ],
   "note": "REFUTED: with 31 rows and any feasible assignment the int subset counter of lap overflows (undefined behaviour). Up to 30 rows see C10-C13."
  },
  {
   "property": "C15",
   "status": "proved",
   "theorems": [
    "C15_costs_non_decreasing"
   ],
   "note": "Exact arithmetic with infinities (no rounding); row-major, 1 to 30 rows, at least one column; any choice of the priority queue among equals."
  },
  {
   "property": "C16",
   "status": "proved",
   "theorems": [
    "C16_true_cost"
   ],
   "note": "Exact arithmetic with infinities (no rounding); row-major, 1 to 30 rows, at least one column; any choice of the priority queue among equals."
  },
  {
   "property": "C17",
   "status": "proved",
   "theorems": [
    "C17_each_once",
    "C17_draws_return"
   ],
   "note": "Exact arithmetic with infinities (no rounding); row-major, 1 to 30 rows, at least one column; any choice of the priority queue among equals. On an empty matrix the constructor is undefined (C17_empty_matrix_undefined)."
  },
  {
   "property": "C18",
   "status": "proved",
   "theorems": [
    "C18_k_best"
   ],
   "note": "Exact arithmetic with infinities (no rounding); row-major, 1 to 30 rows, at least one column; any choice of the priority queue among equals."
  },
  {
   "property": "C20",
   "status": "proved",
   "theorems": [
    "C20_report_mass_split",
    "C20_correction_returns"
   ],
   "note": "Exact arithmetic with infinities and NaN (no rounding); at most 30 targets; likelihoods are inputs; exp may underflow as long as the most likely hypothesis does not."
  },
  {
   "property": "C21",
   "status": "proved",
   "theorems": [
    "C21_exact_marginals"
   ],
   "note": "Exact arithmetic, exact exp; at most 30 targets; likelihoods are inputs. Meaningless choices cost 30000 in the code, not infinity; they count as hypotheses of weight exp(-30000)."
  },
  {
   "property": "C22",
   "status": "proved",
   "theorems": [
    "C22_truncation_keeps_best",
    "C22_at_most_nhyp_max"
   ],
   "note": "Exact arithmetic, exact exp; at most 30 targets; likelihoods are inputs."
  },
  {
   "property": "C23",
   "status": "proved",
   "theorems": [
    "C23_missed_detection_bayes"
   ],
   "note": "Exact arithmetic, exact exp."
  },
  {
   "property": "C24",
   "status": "partial",
   "theorems": [
    "C24_weights_are_numbers_refuted",
    "C24_total_underflow"
   ],
   "note": "REFUTED: with an exp that underflows to 0 below -746, two certain targets (r = 1), a perfect sensor and one report give birth weight NaN. Without total underflow see C19_correction_bounds and C20."
  },
  {
   "property": "C04",
   "status": "proved",
   "theorems": [
    "C04_search_exact",
    "C04_history_without_removals",
    "C04_search_exact_double"
   ],
   "note": "Exact arithmetic: coordinates are real numbers (no rounding), inserted boxes have min <= max; two dimensions, 8/4 branches as in targettree.hpp. The _double theorem holds for IEEE doubles of absolute value up to 2^25 with all rounding."
  },
  {
   "property": "C05",
   "status": "proved",
   "theorems": [
    "C05_balanced",
    "C05_balanced_double"
   ],
   "note": "Exact arithmetic: coordinates are real numbers (no rounding), inserted boxes have min <= max; two dimensions, 8/4 branches as in targettree.hpp. The _double theorem holds for IEEE doubles of absolute value up to 2^25 with all rounding. The covers are exactly the smallest rectangles."
  },
  {
   "property": "C06",
   "status": "proved",
   "theorems": [
    "C06_remove_exact",
    "C06_remove_exact_double"
   ],
   "note": "Exact arithmetic: coordinates are real numbers (no rounding), inserted boxes have min <= max; two dimensions, 8/4 branches as in targettree.hpp. The _double theorem holds for IEEE doubles of absolute value up to 2^25 with all rounding."
  },
  {
   "property": "C07",
   "status": "partial",
   "theorems": [
    "C07_split_defined",
    "C07_split_defined_double_partial",
    "C07_split_defined_refuted"
   ],
   "note": "REFUTED in double arithmetic: nine equal boxes of side 10^9 leave the seeds uninitialised. Proved in exact arithmetic, and in double arithmetic for coordinates up to 2^25 (33 million), all rounding included."
  },
  {
   "property": "C08",
   "status": "proved",
   "theorems": [
    "C08_iterate_all",
    "C08_iterate_all_double"
   ],
   "note": "Exact arithmetic: coordinates are real numbers (no rounding), inserted boxes have min <= max; two dimensions, 8/4 branches as in targettree.hpp. The _double theorem holds for IEEE doubles of absolute value up to 2^25 with all rounding. Fewer than 2^65 entries; also Count."
  },
  {
   "property": "C09",
   "status": "proved",
   "theorems": [
    "C09_save_load",
    "C09_save_load_double"
   ],
   "note": "Exact arithmetic: coordinates are real numbers (no rounding), inserted boxes have min <= max; two dimensions, 8/4 branches as in targettree.hpp. The _double theorem holds for IEEE doubles of absolute value up to 2^25 with all rounding. The stream is the sequence of written objects."
  },
  {
   "property": "C19",
   "status": "proved",
   "theorems": [
    "C19_tracker_bounds",
    "C19_birth_weights",
    "C19_corrections_complete",
    "C19_correction_bounds",
    "C19_history_bounds"
   ],
   "note": "Real weights (no rounding), exp without total underflow, at most 30 targets per cluster (else no result); Gaussian, report and coordinate operations are arbitrary with non-negative likelihoods and positive clutter densities."
  },
  {
   "property": "C59",
   "status": "proved",
   "theorems": [
    "C59_densities_normalised"
   ],
   "note": "Real weights (no rounding), exp without total underflow, at most 30 targets per cluster (else no result); Gaussian, report and coordinate operations are arbitrary with non-negative likelihoods and positive clutter densities. The bound on the scan size keeps the weights dropped by join (1e-8 each) below r_lim."
  },
  {
   "property": "C25",
   "status": "proved",
   "theorems": [
    "C25_clusters_partition"
   ],
   "note": "Densities are an abstract type with real bounding boxes; prediction and association are arbitrary functions that keep ids; index as in C04-C06 (no rounding)."
  },
  {
   "property": "C26",
   "status": "proved",
   "theorems": [
    "C26_index_lists_live_targets",
    "C26_histories_run"
   ],
   "note": "Densities are an abstract type with real bounding boxes; prediction and association are arbitrary functions that keep ids; index as in C04-C06 (no rounding). OutOfFuel is an outcome only when the association fails (C17, C24 cases)."
  },
  {
   "property": "C27",
   "status": "proved",
   "theorems": [
    "C27_ids_unique",
    "C27_ids_never_reused"
   ],
   "note": "Densities are an abstract type with real bounding boxes; prediction and association are arbitrary functions that keep ids; index as in C04-C06 (no rounding). As long as at most 2^32 targets have been created (the counter is 32 bits wide)."
  },
  {
   "property": "C28",
   "status": "proved",
   "theorems": [
    "C28_predict_keeps_viable",
    "C28_correct_keeps_viable"
   ],
   "note": "Densities are an abstract type with real bounding boxes; prediction and association are arbitrary functions that keep ids; index as in C04-C06 (no rounding). Targets outside the field of view and gated by no report are unchanged by a correction."
  },
  {
   "property": "C29",
   "status": "proved",
   "theorems": [
    "C29_births_bounded"
   ],
   "note": "Densities are an abstract type with real bounding boxes; prediction and association are arbitrary functions that keep ids; index as in C04-C06 (no rounding). Needs 0 < r_lim (divisor)."
  },
  {
   "property": "C30",
   "status": "proved",
   "theorems": [
    "C30_interleaving_irrelevant",
    "C30_interleaving_ends",
    "C30_parallel_phase"
   ],
   "note": "Densities are an abstract type with real bounding boxes; prediction and association are arbitrary functions that keep ids; index as in C04-C06 (no rounding). Critical sections are atomic; the computation of a cluster between them touches only its own targets and reports and is one step."
  },
  {
   "property": "C31",
   "status": "proved",
   "theorems": [
    "C31_area_queries_exact",
    "C31_all_targets_exact"
   ],
   "note": "Densities are an abstract type with real bounding boxes; prediction and association are arbitrary functions that keep ids; index as in C04-C06 (no rounding). Sums of reals."
  },
  {
   "property": "C33",
   "status": "partial",
   "theorems": [
    "C33_concurrent_calls_refuted",
    "C33_query_during_correction_races_refuted",
    "C33_predictions_and_queries_race_free_partial"
   ],
   "note": "REFUTED: predict's critical section between correct's query and its clustering frees a target that clustering then writes to; a query during a correction races with it. Proved: predictions and queries alone, from any number of threads, never race."
  },
  {
   "property": "C38",
   "status": "proved",
   "theorems": [
    "C38_normalize",
    "C38_correct",
    "C38_join",
    "C38_prune"
   ],
   "note": "Weights are real numbers (no rounding); components are an abstract type; std::sort is any function that sorts by non-increasing weight."
  },
  {
   "property": "C39",
   "status": "proved",
   "theorems": [
    "C39_join_heaviest"
   ],
   "note": "Weights are real numbers (no rounding); components are an abstract type; std::sort is any function that sorts by non-increasing weight."
  },
  {
   "property": "C40",
   "status": "proved",
   "theorems": [
    "C40_prune_heaviest",
    "C40_sum_heaviest"
   ],
   "note": "Weights are real numbers (no rounding); components are an abstract type; std::sort is any function that sorts by non-increasing weight."
  },
  {
   "property": "C41",
   "status": "proved",
   "theorems": [
    "C41_join_moments"
   ],
   "note": "Weights are real numbers (no rounding); components are an abstract type; std::sort is any function that sorts by non-increasing weight. Moments are componentwise: mean of any linear functional, covariance of any pair."
  },
  {
   "property": "C42",
   "status": "partial",
   "theorems": [
    "C42_sample_in_bounds",
    "C42_all_columns_refuted"
   ],
   "note": "REFUTED: weights 1/3, 2/3 leave a column of 1000 unwritten. Proved: never out of bounds, fewer columns unwritten than components."
  },
  {
   "property": "C43",
   "status": "proved",
   "theorems": [
    "C43_box_of_mixture"
   ],
   "note": "Weights are real numbers (no rounding); components are an abstract type; std::sort is any function that sorts by non-increasing weight. The box of a component is any box containing its mean."
  },
  {
   "property": "C47",
   "status": "proved",
   "theorems": [
    "C47_intersects",
    "C47_symmetric",
    "C47_within",
    "C47_constructor"
   ],
   "note": "Over the reals (no rounding)."
  },
  {
   "property": "C48",
   "status": "partial",
   "theorems": [
    "C48_extents_refuted",
    "C48_extents_exchanged",
    "C48_ellipse_refuted"
   ],
   "note": "REFUTED: the extents along the two axes are exchanged, for every covariance and decomposition (C48_extents_exchanged); the box misses points of the confidence ellipse. Over the reals (no rounding)."
  },
  {
   "property": "C49",
   "status": "proved",
   "theorems": [
    "C49_ellipse_in_box"
   ],
   "note": "Over the reals (no rounding). Any eigenvalue decomposition the solver may return."
  },
  {
   "property": "C50",
   "status": "proved",
   "theorems": [
    "C50_within_axis_aligned",
    "C50_within_oriented"
   ],
   "note": "Over the reals (no rounding)."
  },
  {
   "property": "C51",
   "status": "partial",
   "theorems": [
    "C51_symmetric_refuted"
   ],
   "note": "REFUTED: two crossing bars. Over the reals (no rounding)."
  },
  {
   "property": "C60",
   "status": "partial",
   "theorems": [
    "C60_missed_refuted",
    "C60_disjoint_refuted",
    "C60_corner_partial"
   ],
   "note": "REFUTED in both directions; proved: an overlap with a corner strictly inside is found, and agreement of both directions on yes is right. Over the reals (no rounding)."
  },
  {
   "property": "C61",
   "status": "proved",
   "theorems": [
    "C61_from_points",
    "C61_aabbox"
   ],
   "note": "Over the reals (no rounding)."
  },
  {
   "property": "C52",
   "status": "proved",
   "theorems": [
    "C52_rotation",
    "C52_inverse",
    "C52_lengths"
   ],
   "note": "Over the reals (no rounding); the constants are the decimal ones of the source."
  },
  {
   "property": "C53",
   "status": "proved",
   "theorems": [
    "C53_on_ellipsoid",
    "C53_ne_on_ellipsoid",
    "C53_altitude",
    "C53_own_frame",
    "C53_horizontal"
   ],
   "note": "Over the reals (no rounding); the constants are the decimal ones of the source."
  },
  {
   "property": "C54",
   "status": "proved",
   "theorems": [
    "C54_longitude",
    "C54_mirror"
   ],
   "note": "Over the reals (no rounding); the constants are the decimal ones of the source."
  },
  {
   "property": "C62",
   "status": "proved",
   "theorems": [
    "C62_surface_round_trip",
    "C62_ll_round_trip",
    "C62_own_frame_round_trip"
   ],
   "note": "Over the reals (no rounding); the constants are the decimal ones of the source. Verified numerics (interval arithmetic with Taylor models) over the whole latitude range, both branches."
  },
  {
   "property": "C55",
   "status": "partial",
   "theorems": [
    "C55_never_resampled",
    "C55_resampled_refuted"
   ],
   "note": "REFUTED: the flag valid is false from the start and nothing sets it, so after every history resample() and update_local_bbox() do nothing; witness of non-uniform weights after a join. Over the reals."
  },
  {
   "property": "C56",
   "status": "proved",
   "theorems": [
    "C56_join_heaviest"
   ],
   "note": "Over the reals; any std::sort; densities as they occur (valid is false, see C55)."
  },
  {
   "property": "C57",
   "status": "proved",
   "theorems": [
    "C57_bbox_round_trip",
    "C57_bbox_rejects",
    "C57_aabb_round_trip",
    "C57_target_round_trip",
    "C57_report_round_trip"
   ],
   "note": "Values are copied unchanged; pybind11's own conversions are trusted."
  },
  {
   "property": "C58",
   "status": "partial",
   "theorems": [
    "C58_nhyps_refuted",
    "C58_nhyps_wrong",
    "C58_other_statistics"
   ],
   "note": "REFUTED: cluster_nhyps is bound to the vector of report counts; every cluster with targets and without reports shows 0. The other two statistics are proved right."
  },
  {
   "property": "C63",
   "status": "partial",
   "theorems": [
    "C63_missed_bayes_refuted",
    "C63_missed_weights_wrong",
    "C63_unseen_target_lost",
    "C63_missed_likelihood"
   ],
   "note": "REFUTED: missed() multiplies the weights by pD instead of 1 - pD; the returned likelihood is proved right."
  },
  {
   "property": "C64",
   "status": "proved",
   "theorems": [
    "C64_effective_number"
   ],
   "note": "Over the reals."
  },
  {
   "property": "C65",
   "status": "proved",
   "theorems": [
    "C65_mean_between",
    "C65_covariance"
   ],
   "note": "Over the reals."
  },
  {
   "property": "C66",
   "status": "proved",
   "theorems": [
    "C66_weights_over_histories"
   ],
   "note": "Over the reals; any std::sort."
  },
  {
   "property": "C35",
   "status": "proved",
   "theorems": [
    "C35_ospa_between_zero_and_cutoff",
    "C35_31_points_undefined"
   ],
   "note": "Over the reals, for at most 30 targets and true states; with 31 the assignment code overflows (C14)."
  },
  {
   "property": "C36",
   "status": "partial",
   "theorems": [
    "C36_ospa_is_minimum_refuted",
    "C36_order_two_refuted",
    "C36_ospa_attained_partial",
    "C36_ospa_order_one_partial"
   ],
   "note": "REFUTED: the solver reads the column-major matrix as row-major, and it minimises the sum of distances instead of the sum of their p-th powers. Proved: the value belongs to some matching, and it is the minimum for p = 1 with at most two points or symmetric distances."
  },
  {
   "property": "C37",
   "status": "partial",
   "theorems": [
    "C37_gospa_is_minimum_refuted",
    "C37_gospa_attained_partial",
    "C37_gospa_small_partial",
    "C37_gospa_returns"
   ],
   "note": "REFUTED: the solver reads the column-major matrix as row-major. Proved: the value belongs to some matching, and it is the minimum with at most two points or symmetric distances."
  },
  {
   "property": "C44",
   "status": "proved",
   "theorems": [
    "C44_prediction",
    "C44_correction",
    "C44_every_life"
   ],
   "note": "Matrices of every dimension over every ordered field; no rounding."
  },
  {
   "property": "C45",
   "status": "proved",
   "theorems": [
    "C45_posterior",
    "C45_bayes"
   ],
   "note": "Matrices of every dimension over every ordered field (Bayes' rule over the reals); no rounding."
  },
  {
   "property": "C46",
   "status": "proved",
   "theorems": [
    "C46_split_prediction",
    "C46_zero_interval"
   ],
   "note": "Over the reals."
  },
  {
   "property": "C67",
   "status": "partial",
   "theorems": [
    "C67_any_times_refuted",
    "C67_process_noise",
    "C67_forward_prediction_partial",
    "C67_constant_model"
   ],
   "note": "REFUTED: a prediction to an earlier time subtracts noise and makes variances negative; nothing in the code stops it. Proved for predictions forwards in time."
  },
  {
   "property": "C32",
   "status": "partial",
   "theorems": [
    "C32_evaluation_harmless_refuted",
    "C32_position_kept_refuted",
    "C32_exact_frames_partial",
    "C32_flat_world_partial"
   ],
   "note": "REFUTED: ospa, gospa and pos_phd move every target to a local frame and back, which on the ellipsoid changes positions while the index keeps the old boxes; a later correction dereferences a freed target. Proved: nothing changes where frame changes are exact; index and definedness survive where the boxes are."
  },
  {
   "property": "C34",
   "status": "proved",
   "theorems": [
    "C34_phd_bound",
    "C34_phd_value"
   ],
   "note": "Arbitrary samples; the value is the weighted histogram of the samples. After histories of predictions and corrections."
  },
  {
   "property": "C68",
   "status": "partial",
   "theorems": [
    "C68_phd_defined_refuted"
   ],
   "note": "REFUTED: an area without width or height that meets the box of a target divides by zero and converts the result to int."
  },
  {
   "property": "C69",
   "status": "partial",
   "theorems": [
    "C69_detects_refuted",
    "C69_edges_refuted",
    "C69_detects_partial"
   ],
   "note": "REFUTED: in the local frame the corners of the default field of view fall together in two points, so the detection probability is 0 everywhere; other fields of view lose a strip at their edges. Proved for fields of view around a point of the equator with samples between its corners."
  },
  {
   "property": "C70",
   "status": "partial",
   "theorems": [
    "C70_global_box_refuted",
    "C70_global_box_partial"
   ],
   "note": "REFUTED: at the date line the box is everything but the strip it was made for. Proved on the equator away from the date line."
  },
  {
   "property": "C71",
   "status": "proved",
   "theorems": [
    "C71_prediction_value"
   ],
   "note": "Any history, any operations on Gaussians; exact arithmetic."
  },
  {
   "property": "C72",
   "status": "proved",
   "theorems": [
    "C72_correction_value"
   ],
   "note": "Any history, any operations on Gaussians, real exp; exact arithmetic."
  },
  {
   "property": "C73",
   "status": "partial",
   "theorems": [
    "C73_stays_near_refuted",
    "C73_stays_near_partial"
   ],
   "note": "REFUTED: a cluster across the date line is moved to the other side of the Earth. Proved on the equator for clusters that do not cross it."
  },
  {
   "property": "C74",
   "status": "proved",
   "theorems": [
    "C74_row_scans"
   ],
   "note": "Exact arithmetic with infinities; the vector instructions are modelled lane by lane. C10-C13 hold for both builds."
  },
  {
   "property": "C75",
   "status": "proved",
   "theorems": [
    "C75_covariances"
   ],
   "note": "Exact arithmetic; states of two positions and two velocities; predictions forward in time; reports have positive definite position and velocity covariances, noise is positive semi-definite. Boxes, coordinate maps and detection probabilities are arbitrary."
  },
  {
   "property": "C76",
   "status": "partial",
   "theorems": [
    "C76_bayes_refuted",
    "C76_bayes_partial",
    "C76_missed_weights"
   ],
   "note": "REFUTED: missed() returns the right likelihood but leaves the weights; a reachable target with two components of which the sensor covers one. Proved: the relative weights stay as they were, which is the posterior if all components are detected alike."
  },
  {
   "property": "C77",
   "status": "partial",
   "theorems": [
    "C77_parallel_loops_race_free_refuted",
    "C77_generator_races",
    "C77_parallel_loops_race_free_partial"
   ],
   "note": "REFUTED: two clusters with targets draw samples from the same unprotected random number generator. Proved: that is the only race in any correction of any reachable tracker."
  },
  {
   "property": "C78",
   "status": "proved",
   "theorems": [
    "C78_no_deadlock",
    "C78_calls_complete"
   ],
   "note": "Accesses and locks of all calls for any data; what is computed is left out. Two locks: the interpreter's and critical(ttree)."
  },
  {
   "property": "C79",
   "status": "proved",
   "theorems": [
    "C79_double_memory_safe",
    "C79_double_terminates",
    "C79_double_feasibility_decided",
    "C79_double_assignment_feasible"
   ],
   "note": "IEEE doubles, both builds; entries +infinity or at most 2^300 in absolute value, at most 30 rows, fewer than 100000 columns."
  },
  {
   "property": "C80",
   "status": "partial",
   "theorems": [
    "C80_double_assignment_optimal_refuted",
    "C80_double_grid_costs_optimal_partial",
    "C80_double_near_optimal_partial"
   ],
   "note": "REFUTED: costs 1, 2^54; -2^54, 2: returned total 3, least total 0. Proved: optimal in doubles when the finite costs are multiples of one power of two with 32 m K below 2^53 units; for any costs up to B within 36 n (n+1)^n m B 2^-47 of the least total. Missing: a bound that is not exponential in the rows. In exact arithmetic the assignment is optimal (C11)."
  },
  {
   "property": "C81",
   "status": "partial",
   "theorems": [
    "C81_rounds_bounded_by_size_refuted",
    "C81_rounds_grow_with_costs_partial"
   ],
   "note": "REFUTED: a family of 3 x 3 matrices that need more rounds than any bound. Proved: the rounds grow at least with half the largest cost (in units of the difference between two costs). The loop does end (C13, C79)."
  },
  {
   "property": "C82",
   "status": "proved",
   "theorems": [
    "C82_double_draws_return",
    "C82_double_cost_close",
    "C82_double_each_once"
   ],
   "note": "IEEE doubles; entries +infinity or at most 2^a in absolute value (-900 <= a <= 299), at most 30 rows, fewer than 100000 columns; whatever element is on top of the queue."
  },
  {
   "property": "C83",
   "status": "partial",
   "theorems": [
    "C83_double_costs_non_decreasing_refuted",
    "C83_double_grid_costs_ranked_partial",
    "C83_double_near_ranked_partial"
   ],
   "note": "REFUTED: costs 5, 2^55; 2, 2^55: the first draw costs 2^55 + 8, the second 2^55. Proved for costs that are multiples of one power of two (below 2^53 / (64 m) units): exact costs, each draw the best remaining, costs do not decrease. For any costs each draw is within n (n+1)^n m 2^(a-40) of the best remaining. Missing: a bound polynomial in the number of rows."
  },
  {
   "property": "C84",
   "status": "partial",
   "theorems": [
    "C84_double_existence_bounds_refuted",
    "C84_double_correction_returns",
    "C84_double_existence_partial",
    "C84_double_birth_partial"
   ],
   "note": "REFUTED: one target with r = 1 and eight equally likely reports gets r = 1.0000000000000002. Proved: the step returns; existence probabilities are numbers, not negative, and exceed 1 at most by 2^-50 for each hypothesis and report; birth weights likewise, for a positive total weight. IEEE doubles; the cost matrix is an input."
  },
  {
   "property": "C85",
   "status": "proved",
   "theorems": [
    "C85_double_marginals"
   ],
   "note": "IEEE doubles; costs at most 2^15 in absolute value or +infinity, total weight between 2^-600 and 2^900, nhyp_max at most 2^20, exponential accurate to 2^-40. The cost matrix is an input."
  },
  {
   "property": "C86",
   "status": "partial",
   "theorems": [
    "C86_double_targets_survive_refuted",
    "C86_double_all_lost",
    "C86_double_total_weight_partial"
   ],
   "note": "REFUTED: ten targets whose reports fit at cost -72 each: exp(720) is infinite, all quotients become 0 or NaN, and every existence probability becomes 0. Proved: that happens whenever the total weight is 0 or infinite; it is not if the hypotheses used cost at least -250 and one of them at most 250."
  },
  {
   "property": "C87",
   "status": "proved",
   "theorems": [
    "C87_constant_velocity",
    "C87_constant_noise",
    "C87_predicted_mean"
   ],
   "note": "Exact arithmetic, state of two positions and two velocities."
  },
  {
   "property": "C88",
   "status": "partial",
   "theorems": [
    "C88_r_readable_refuted",
    "C88_summaries_partial",
    "C88_python_attribute"
   ],
   "note": "REFUTED: r is a reference to the own member w; when the vector grows, the copies refer to the freed storage, so with two or more targets reading r is undefined for at least half of the summaries. Proved: all values stored (w among them) are right, exactly the summaries moved are affected, and the Python attribute r, which is bound to w, is right."
  },
  {
   "property": "C89",
   "status": "proved",
   "theorems": [
    "C89_double_normalize",
    "C89_double_sampling"
   ],
   "note": "IEEE doubles; at most 2^20 components, at most 2^29 columns."
  },
  {
   "property": "C90",
   "status": "partial",
   "theorems": [
    "C90_double_predict_refuted",
    "C90_double_predict_partial"
   ],
   "note": "REFUTED: r = 1, survival 1 and the mixture with normalised weights 1, 6, 3, 3 gives r = 1.0000000000000002. Proved: a number, not negative, at most r (1 + (6n+7) 2^-53) + 2^-1075."
  },
  {
   "property": "C91",
   "status": "partial",
   "theorems": [
    "C91_double_missed_refuted",
    "C91_double_missed_partial",
    "C91_double_costs_partial"
   ],
   "note": "REFUTED: with the default detection probability 1 and the normalised weights 1, 6, 3, 3, all in view, the probability of being missed is -2.2e-16 and the cost NaN. Proved: it is correct to (5n+14) 2^-53; with a detection probability of at most 1 - 2^-20 all costs are as claimed."
  },
  {
   "property": "C92",
   "status": "partial",
   "theorems": [
    "C92_double_posterior_refuted",
    "C92_double_posterior_partial"
   ],
   "note": "REFUTED: three targets and a report with default parameters; a NaN cost makes the existence probability of the second target 0.258 instead of 41/113 = 0.363. Proved, for a detection probability of at most 1 - 2^-20 and a total weight between 2^-600 and 2^900: the results are the marginals of the hypotheses used, weighted by the exact factors, up to 2^-18 + (44n+240) 2^-32 for each target; all hypotheses are used unless nhyp_max or w_lim stopped the loop or a factor is at most 1.01e-8."
  },
  {
   "property": "C93",
   "status": "proved",
   "theorems": [
    "C93_samples_of_a_gaussian"
   ],
   "note": "Exact arithmetic; the eigenvalue solver returns an orthonormal decomposition; the generator yields uncorrelated numbers of mean 0 and variance 1."
  },
  {
   "property": "C94",
   "status": "proved",
   "theorems": [
    "C94_overlap_estimates"
   ],
   "note": "Exact arithmetic; groups of four numbers of the generator are independent two at a time. Membership in the box is what BBox::within decides (C50)."
  },
  {
   "property": "C95",
   "status": "partial",
   "theorems": [
    "C95_double_covariance_refuted",
    "C95_double_covariance_partial",
    "C95_double_covariance_correlated_partial"
   ],
   "note": "REFUTED: position variance 31 and a report of variance 2^-60 give the variance -7.1e-15; variances 3 and 20, covariance 5 and a report of variance 2 give 1.9999999999999996 above and 2 below the diagonal. Proved for uncorrelated axes, magnitudes between 2^-200 and 2^200: each coefficient is within 2^-49 of the exact one, relative to the one before; the result is positive definite when r (pv - c^2) is at least 2^-45 (p + r) p v. Proved for correlated axes, magnitudes between 2^-100 and 2^100 and 1 - rho^2 of the innovation at least 1/K: each coefficient is within 2^-46 K^2 of the exact one relative to the deviations, and the result is positive definite when the exact one is by more than 2^-44 K^2 of the variances."
  },
  {
   "property": "C96",
   "status": "proved",
   "theorems": [
    "C96_double_mean",
    "C96_double_mean_correlated"
   ],
   "note": "IEEE doubles without fused operations; Eigen's 2 x 2 inverse is adjugate times reciprocal of the determinant; sums in any order."
  },
  {
   "property": "C97",
   "status": "proved",
   "theorems": [
    "C97_texts_are_json",
    "C97_text_tells_targets"
   ],
   "note": "How a stream prints one double is a parameter (finite: a JSON number; otherwise inf, nan, -inf, -nan). JSON is the grammar of RFC 8259. The text of a summary leaves out cid."
  },
  {
   "property": "C98",
   "status": "proved",
   "theorems": [
    "C98_near_posterior",
    "C98_error_bound",
    "C98_fates_listed"
   ],
   "note": "Exact arithmetic with the real exponential; C85 bounds what doubles add."
  },
  {
   "property": "C99",
   "status": "proved",
   "theorems": [
    "C99_cluster_near_scene",
    "C99_exact_if_apart",
    "C99_correction_near_scene"
   ],
   "note": "Exact arithmetic with the real exponential. The cluster's targets and reports are numbered first."
  },
  {
   "property": "C100",
   "status": "proved",
   "theorems": [
    "C100_mixture_bayes"
   ],
   "note": "Exact arithmetic; positive definite covariances hold after any history (C75)."
  },
  {
   "property": "C101",
   "status": "proved",
   "theorems": [
    "C101_join_loss"
   ],
   "note": "Weights are real numbers (no rounding); components are an abstract type; std::sort is any function that sorts by non-increasing weight."
  },
  {
   "property": "C102",
   "status": "partial",
   "theorems": [
    "C102_double_prediction_refuted",
    "C102_double_prediction_partial"
   ],
   "note": "REFUTED: variances 31.212 and 10.8 with covariance -18.36 give the variance -3.6e-15 after the time 1.7 with noise 2^-60; a covariance with correlated axes is not symmetric after the time 0.1. Proved for magnitudes between 2^-200 and 2^200, time step and noise 0 or between 2^-60 and 2^60: each coefficient is within 2^-50 of the exact one relative to the absolute values that go into it; all but the covariance of the two positions are symmetric; the result is positive definite when the exact one is by more than 2^-47 of the uncorrelated variances."
  },
  {
   "property": "C103",
   "status": "proved",
   "theorems": [
    "C103_double_drift"
   ],
   "note": "IEEE doubles without fused operations; sums in any order; time step 0 or between 2^-60 and 2^60."
  },
  {
   "property": "C104",
   "status": "proved",
   "theorems": [
    "C104_double_likelihood"
   ],
   "note": "IEEE doubles without fused operations; sums in any order; exp and the square of pow accurate to 40 bits. The bound degrades with the correlation of the innovation (K up to 1000)."
  },
  {
   "property": "C105",
   "status": "proved",
   "theorems": [
    "C105_double_mixture"
   ],
   "note": "As C104; the numbers of samples in view are inputs."
  },
  {
   "property": "C106",
   "status": "proved",
   "theorems": [
    "C106_update_from_gaussians"
   ],
   "note": "IEEE doubles without fused operations; sums in any order; exp, log and the square of pow accurate to 40 bits; numbers of samples in view are inputs. Targets in the local frame of the cluster."
  },
  {
   "property": "C107",
   "status": "proved",
   "theorems": [
    "C107_double_join",
    "C107_double_target_correct"
   ],
   "note": "IEEE doubles without fused operations. A component is its weight and an arbitrary value for mean and covariance, which joining copies."
  },
  {
   "property": "C108",
   "status": "proved",
   "theorems": [
    "C108_cluster_correction",
    "C108_no_hypothesis",
    "C108_usual_sizes"
   ],
   "note": "IEEE doubles without fused operations, in the local frame of the cluster. The numbers of samples in view are inputs, since they are random."
  },
  {
   "property": "C109",
   "status": "proved",
   "theorems": [
    "C109_shares",
    "C109_total"
   ],
   "note": "Exact arithmetic; the tracker itself does not call it."
  },
  {
   "property": "C110",
   "status": "proved",
   "theorems": [
    "C110_total_weight",
    "C110_few_targets"
   ],
   "note": "IEEE doubles without fused operations, in the local frame of the cluster. The bound on the first draw (C83) grows with the number of rows; with six targets the factors allowed by scene_ok may overflow."
  },
  {
   "property": "C111",
   "status": "proved",
   "theorems": [
    "C111_mean",
    "C111_covariance",
    "C111_symmetric",
    "C111_variance"
   ],
   "note": "IEEE doubles without fused operations. Means up to 2^200, in whatever frame."
  },
  {
   "property": "C112",
   "status": "proved",
   "theorems": [
    "C112_norm",
    "C112_viable"
   ],
   "note": "IEEE doubles without fused operations. Outside the ranges a norm that is not a number keeps the target (C112_not_a_number)."
  },
  {
   "property": "C113",
   "status": "proved",
   "theorems": [
    "C113_gaussian",
    "C113_mixture",
    "C113_intersects"
   ],
   "note": "IEEE doubles without fused operations. The eigenvalues and the cosines and sines are taken as the solver and the C library return them; that the half widths belong to the other axis is C48. A negative eigenvalue, outside the ranges, makes the box collapse (C113_negative_eigenvalue)."
  },
  {
   "property": "C114",
   "status": "proved",
   "theorems": [
    "C114_prune",
    "C114_plus"
   ],
   "note": "IEEE doubles. The tracker itself does not call prune. A weight that is not a number, outside the ranges, passes the limit and spoils all weights (C114_not_a_number)."
  },
  {
   "property": "C115",
   "status": "proved",
   "theorems": [
    "C115_gaussian",
    "C115_ends",
    "C115_mixture"
   ],
   "note": "IEEE doubles without fused operations. Which samples lie within is an input; C94 is about their expected share."
  }
 ]
}