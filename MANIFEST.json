{
 "claims": [
  {
   "property": "C01",
   "status": "proved",
   "theorems": [
    "C01_incremental_cells_are_group_totals"
   ],
   "note": "all tables, any column names"
  },
  {
   "property": "C02",
   "status": "proved",
   "theorems": [
    "C02_incremental_order_irrelevant"
   ],
   "note": ""
  },
  {
   "property": "C03",
   "status": "partial",
   "theorems": [
    "C03_cumulative_cells_are_running_totals_partial",
    "C03_cells_of_every_table",
    "C03_row_order_refuted"
   ],
   "note": "full statement is false of the code: totals accumulate in row order; proved for tables in development order without duplicates or NaN"
  },
  {
   "property": "C04",
   "status": "partial",
   "theorems": [
    "C04_incremental_then_cumulate_partial",
    "C04_stacked_exactly",
    "C04_stacked_overstated",
    "C04_stacked_companies_refuted"
   ],
   "note": "false of the code as documented (witness with two companies); building incrementally and converting with to_cum does give the sum; C04_stacked_exactly gives every recorded cell for any number of stacked companies, and with positive losses every cell two or more companies report is too large"
  },
  {
   "property": "C05",
   "status": "partial",
   "theorems": [
    "C05_missing_actuals_filled_partial",
    "C05_missing_exactly",
    "C03_cells_of_every_table",
    "C05_irregular_gap_refuted"
   ],
   "note": "proved for staircase gap patterns; false otherwise (witness); C05_missing_exactly says for every table which cells stay missing and what the others hold"
  },
  {
   "property": "C06",
   "status": "proved",
   "theorems": [
    "C06_totri_leaves_frames_alone"
   ],
   "note": ""
  },
  {
   "property": "C07",
   "status": "proved",
   "theorems": [
    "C07_to_incr_then_to_cum",
    "C07_to_cum_then_to_incr"
   ],
   "note": ""
  },
  {
   "property": "C08",
   "status": "partial",
   "theorems": [
    "C08_incr_then_cum_equals_cum_partial",
    "C08_iff",
    "C08_negative_first_value_refuted",
    "C08_gap_refuted"
   ],
   "note": "full statement false; proved for tables in development order, positive first values, no gaps; C08_iff gives the exact condition for finite tables in development order"
  },
  {
   "property": "C09",
   "status": "partial",
   "theorems": [
    "C09_cumulative_table_reproduced_partial",
    "C09_exactly",
    "C09_reproduced_iff",
    "C09_nan_refuted"
   ],
   "note": "proved for all finite duplicate-free tables in any row order; false with NaN records; every cell is determined for every table without infinities, and a record is reproduced iff nothing is carried over from earlier missing values"
  },
  {
   "property": "C10",
   "status": "proved",
   "theorems": [
    "C10_triangle_shaped_incremental",
    "C10_triangle_shaped_cumulative"
   ],
   "note": "for the default column names; other names raise"
  },
  {
   "property": "C11",
   "status": "proved",
   "theorems": [
    "C11_latest_is_last_observed"
   ],
   "note": ""
  },
  {
   "property": "C12",
   "status": "proved",
   "theorems": [
    "C12_last_valid_rows_and_triind",
    "C12_runoff_triind_maturity"
   ],
   "note": ""
  },
  {
   "property": "C13",
   "status": "proved",
   "theorems": [
    "C13_diagonals"
   ],
   "note": "also: positive in-range offsets raise KeyError"
  },
  {
   "property": "C14",
   "status": "partial",
   "theorems": [
    "C14_to_tbl_lists_observed_cells",
    "C14_to_tbl_all_cells",
    "C14_rebuild_from_to_tbl_partial",
    "C14_rebuild_exactly",
    "C14_rebuild_iff",
    "C14_rebuild_cumulative",
    "C14_rebuild_nan_refuted"
   ],
   "note": "Incremental: rebuild is false when a first-development cell is not positive or an origin or period has no observed cell; C14_rebuild_exactly gives the rebuilt triangle for every triangle and C14_rebuild_iff the exact condition. Cumulative triangles of finite tables are always reproduced."
  },
  {
   "property": "C15",
   "status": "partial",
   "theorems": [
    "C15_cells_independent_of_names_partial",
    "C15_operations_refuted",
    "C15_value_name",
    "C15_other_names",
    "C15_to_tbl_iff",
    "C15_to_cum_iff"
   ],
   "note": "cells agree; to_tbl, latest and to_cum fail under other names, and exactly which names work is proved"
  },
  {
   "property": "C16",
   "status": "partial",
   "theorems": [
    "C16_missing_column_rejected_partial",
    "C16_bad_shape_rejected",
    "C16_bad_type_rejected",
    "C16_bad_format_rejected_partial",
    "C16_bad_arguments_accepted_refuted",
    "C16_accepted_iff"
   ],
   "note": "tabular data_format is not validated; a missing value column is accepted when a column 'cum' exists. Without such a column, numeric tables are accepted exactly if the type is recognised, all three columns are there and there is a row"
  },
  {
   "property": "C17",
   "status": "proved",
   "theorems": [
    "C17_a2a_cells_are_adjacent_ratios",
    "C17_a2a_of_run_off_triangle"
   ],
   "note": ""
  },
  {
   "property": "C19",
   "status": "proved",
   "theorems": [
    "C19_averages_are_the_documented_ones",
    "C19_weighted_factor_between_link_ratios"
   ],
   "note": "geometric mean is a parameter"
  },
  {
   "property": "C20",
   "status": "proved",
   "theorems": [
    "C20_medial_average",
    "C20_medial_rows"
   ],
   "note": ""
  },
  {
   "property": "C21",
   "status": "partial",
   "theorems": [
    "C21_excluded_ratios_not_averaged_partial",
    "C21_base_cl_all_simple_partial",
    "C21_base_cl_default_ignores_exclusions_refuted",
    "C21_excluding_latest_ratio_raises_refuted",
    "C21_base_cl_labels_partial",
    "C21_weighted_labels_refuted",
    "C21_base_cl_raises_refuted",
    "C29_excluded_ratios_have_no_influence",
    "C21_boot_cl_ignores_exclusions_refuted"
   ],
   "note": "true of simple, geometric and medial averages; the weighted averages, the default base_cl and boot_cl ignore a2aind; excluding the latest ratio of a column raises IndexError"
  },
  {
   "property": "C22",
   "status": "partial",
   "theorems": [
    "C22_cldfs_are_products",
    "C22_default_factors",
    "C22_any_spacing",
    "C22_oldest_factor_shown_iff",
    "C22_uneven_spacing_refuted"
   ],
   "note": "products proved for all; the oldest origin shows a factor exactly when the last step between periods is the smallest of the earlier steps, otherwise it is missing and the rest of the result is unchanged"
  },
  {
   "property": "C23",
   "status": "partial",
   "theorems": [
    "C23_reserve_and_total",
    "C23_latest",
    "C23_ultimate_partial",
    "C23_ultimate_any_shape",
    "C23_ragged_refuted"
   ],
   "note": "ultimate formula false for square triangles that are not regular run-off triangles"
  },
  {
   "property": "C24",
   "status": "proved",
   "theorems": [
    "C24_squared_triangle"
   ],
   "note": ""
  },
  {
   "property": "C25",
   "status": "proved",
   "theorems": [
    "C25_scaling"
   ],
   "note": "all selections with finite factors"
  },
  {
   "property": "C26",
   "status": "partial",
   "theorems": [
    "C26_list_equals_label",
    "C26_series_equals_label",
    "C26_wrong_length_rejected",
    "C26_list_not_modified_partial",
    "C26_series_modified_refuted"
   ],
   "note": "a Series is modified in place, the second call fails"
  },
  {
   "property": "C28",
   "status": "proved",
   "theorems": [
    "C28_mack_point_estimates_are_chain_ladder"
   ],
   "note": "all link ratios included; base_cl with tail 1"
  },
  {
   "property": "C29",
   "status": "proved",
   "theorems": [
    "C29_alpha_weighted_factors",
    "C29_excluded_ratios_have_no_influence",
    "C29_alpha_2_least_squares"
   ],
   "note": "natural alpha; every column keeps a link ratio with positive weight"
  },
  {
   "property": "C30",
   "status": "proved",
   "theorems": [
    "C30_process_error_is_macks_formula"
   ],
   "note": "given numeric devpvar; C32 says when devpvar is not numeric"
  },
  {
   "property": "C31",
   "status": "proved",
   "theorems": [
    "C31_parameter_error_closed_form"
   ],
   "note": "given numeric ldfvar"
  },
  {
   "property": "C32",
   "status": "partial",
   "theorems": [
    "C32_variances_partial",
    "C32_errors_not_negative",
    "C32_degenerate_variances",
    "C32_last_variance_refuted"
   ],
   "note": "the last variance is NaN when the two before it are 0, and then every error is reported as 0"
  },
  {
   "property": "C33",
   "status": "proved",
   "theorems": [
    "C33_total_mse_is_macks_formula",
    "C33_total_mse_at_least_sum"
   ],
   "note": "formula given numeric devpvar; the inequality holds always"
  },
  {
   "property": "C50",
   "status": "proved",
   "theorems": [
    "C50_mack_ignores_tail"
   ],
   "note": ""
  },
  {
   "property": "C44",
   "status": "proved",
   "theorems": [
    "C44_spearman_coefficients"
   ],
   "note": "ties allowed (average ranks)"
  },
  {
   "property": "C45",
   "status": "partial",
   "theorems": [
    "C45_exact_moments",
    "C45_calendar_year_table",
    "C45_spacing",
    "C45_medians",
    "C45_counts_partial",
    "C45_counts_refuted"
   ],
   "note": "moments exact for every n >= 1; ratios within numpy's tolerance of the median are not counted, so the count claim holds only when there are none"
  },
  {
   "property": "C38",
   "status": "proved",
   "theorems": [
    "C38_fitted_triangles",
    "C38_value_column_refuted"
   ],
   "note": "For every positive n-by-n run-off triangle boot_cl accepts. boot_cl itself raises KeyError unless the value column is named 'value' (C38_value_column_refuted)."
  },
  {
   "property": "C39",
   "status": "partial",
   "theorems": [
    "C39_dof_partial",
    "C39_dof_refuted"
   ],
   "note": "The code adds 2 x origins: dof = cells - (origins + periods - 1) + 2 x origins on every run-off triangle, so the property as stated is false of the code."
  },
  {
   "property": "C40",
   "status": "proved",
   "theorems": [
    "C40_sampling_distribution",
    "C40_scale_parameter"
   ],
   "note": "Includes the values of the residuals and their adjustment."
  },
  {
   "property": "C41",
   "status": "partial",
   "theorems": [
    "C41_noise_free_partial",
    "C41_simulated_factors_partial",
    "C41_reproduced_iff",
    "C41_any_labels",
    "C41_other_labels_refuted",
    "C41_first_period_label_refuted",
    "C41_decreasing_refuted",
    "C41_exact_fit_refuted"
   ],
   "note": "Records, summary and totals equal base_cl's when the first development label is 1, factors are at least 1 and the scale is positive; with first label 1 and positive scale the ultimates agree if and only if no factor is below 1 (C41_reproduced_iff); refuted for every other first label (C41_any_labels gives the records, C41_other_labels_refuted the direction of the error), for a factor below 1 and for exactly fitting data."
  },
  {
   "property": "C42",
   "status": "partial",
   "theorems": [
    "C42_independent_partial",
    "C42_runoff_partial",
    "C42_seed_determines",
    "C42_leak_refuted",
    "C42_last_factor_below_1_refuted",
    "C42_ultimates_cross_refuted",
    "C42_two_complete_origins_refuted"
   ],
   "note": "Simulation independence for every triangle, draws and simulation counts when only the oldest origin is observed at the last period and its fitted increment there is not negative (run-off triangles: last factor at least 1); refuted when the last factor is below 1 (for every such triangle with the other factors at least 1: every record in closed form, the last factor of a simulation divides a total of its own by a loss of the simulation before, and is 0 in the first) and when two origins are observed at the last period."
  },
  {
   "property": "C43",
   "status": "partial",
   "theorems": [
    "C43_reserves_partial",
    "C43_reserve_of_every_record",
    "C43_missing_ultimate_refuted"
   ],
   "note": "One record per (sim, origin) and oldest reserve 0 for all triangles and draws; reserve = ultimate - latest whenever both are numbers; refuted when the ultimate is missing."
  },
  {
   "property": "C18",
   "status": "partial",
   "theorems": [
    "C18_indicators",
    "C18_nothing_else",
    "C18_accepted_partial",
    "C18_unread_setter_refuted"
   ],
   "note": "Proved for every history of reads, calls and assignments to existing labels. Missing: the documented setter raises AttributeError on a triangle whose a2aind was never read (refuted theorem, true of every triangle); labels outside the link ratio table make pandas enlarge the frame: see C78."
  },
  {
   "property": "C27",
   "status": "proved",
   "theorems": [
    "C27_history",
    "C27_reads_and_calls",
    "C27_estimators",
    "C27_totri",
    "C27_stale_offsets_refuted"
   ],
   "note": "All histories over the cached properties, conversions, diagonal, a2a_avgs and the three estimators, interleaved with indicator assignments. C27_totri: every cumulative triangle from totri meets the hypotheses. The refuted theorem is about a neighbouring reading (same cells, separately built object): totri leaves offsets cached that can differ from those of the final cells."
  },
  {
   "property": "C35",
   "status": "proved",
   "theorems": [
    "C35_quantiles",
    "C35_result_quantiles",
    "C35_rejected"
   ],
   "note": "All request lists, NaN and infinities included."
  },
  {
   "property": "C36",
   "status": "partial",
   "theorems": [
    "C36_refuted",
    "C36_headers",
    "C36_mack_get_quantiles_partial",
    "C36_mack_summary_partial",
    "C36_boot_summary_partial",
    "C36_boot_get_quantiles_partial",
    "C36_get_columns",
    "C36_summary_columns",
    "C36_boot_get_columns",
    "C36_boot_summary_columns",
    "C36_samples",
    "C36_header_text",
    "C36_ordinals_refuted"
   ],
   "note": "False for quantiles closer than 1e-7 (C36_refuted); headers collide exactly when the percentages agree after rounding to five decimals (C36_headers); proved for quantiles more than 1e-7 apart. For arbitrary requests C36_*_columns give the tables exactly (of quantiles sharing a header the largest is shown), with the samples stated outright; C36_header_text gives the header text."
  },
  {
   "property": "C37",
   "status": "proved",
   "theorems": [
    "C37_monotone",
    "C37_bounds",
    "C37_ends",
    "C37_order_statistics",
    "C37_linear",
    "C37_methods",
    "C37_lower_bound"
   ],
   "note": "All non-empty finite samples, all five interpolation methods."
  },
  {
   "property": "C48",
   "status": "partial",
   "theorems": [
    "C48_ticks_partial",
    "C48_ticks_refuted"
   ],
   "note": "Raises ValueError for maxima <= 1, >= 10^10 or equal to a power of ten; proved for all others."
  },
  {
   "property": "C46",
   "status": "proved",
   "theorems": [
    "C46_filters",
    "C46_selection_unique",
    "C46_bad_loss_type",
    "C46_bad_tri_type",
    "C46_incremental_aggregates",
    "C46_missing_files",
    "C46_missing_reference"
   ],
   "note": "All databases and filter combinations; a filter value is absent when no record passes all filters given so far."
  },
  {
   "property": "C47",
   "status": "proved",
   "theorems": [
    "C47_datasets",
    "C47_listed_names_load",
    "C47_unknown_names",
    "C47_load_lrdb_by_name",
    "C47_lobs",
    "C47_specs",
    "C47_specs_load"
   ],
   "note": "All dataset references and databases; listed names load when their files are installed."
  },
  {
   "property": "C49",
   "status": "partial",
   "theorems": [
    "C49_residuals_by_devp_partial",
    "C49_residuals_by_origin_partial",
    "C49_scale_refuted"
   ],
   "note": "The residuals are proved; the scale is refuted for every vector of two or more residuals (operator precedence: sum/n - 1)."
  },
  {
   "property": "C34",
   "status": "partial",
   "theorems": [
    "C34_normal_is_moment_matched",
    "C34_lognormal_partial",
    "C34_lognormal_moments",
    "C34_lognormal_refuted",
    "C34_unknown_distribution",
    "C34_std_error_column",
    "C34_lognormal_other_rows",
    "C34_oldest_origin_refuted"
   ],
   "note": "Normal: every row. Lognormal: rows with reserve >= 1; below 1 the mean is 1 (clip of log(reserve) at 0), refuted on a run, and in particular for the oldest origin of every run (reserve 0, fitted constant 1); rows with a negative reserve or with reserve 0 and an error get no distribution. Mean and standard deviation are improper integrals over the real line; uses the axioms of the standard library's reals."
  },
  {
   "property": "C51",
   "status": "proved",
   "theorems": [
    "C51_records_to_chain_ladder",
    "C51_records_to_mack"
   ],
   "note": "For mack_cl the second-last estimated variance is assumed positive (the degenerate case is C32)."
  },
  {
   "property": "C52",
   "status": "partial",
   "theorems": [
    "C52_mack_scaling_partial",
    "C52_every_alpha",
    "C52_other_alphas_refuted"
   ],
   "note": "Proved for alpha = 1; for every alpha the exact effect and the exact condition under which the property holds (C52_every_alpha); false for alpha = 0 and 2, where the process error is multiplied by c^(1+alpha) (refuted on a run)."
  },
  {
   "property": "C53",
   "status": "proved",
   "theorems": [
    "C53_averages_ignore_labels",
    "C53_base_cl_ignores_labels",
    "C53_mack_cl_ignores_labels",
    "C53_mack_any_spacing"
   ],
   "note": "Selections by label or sequence (a Series carries its own labels)."
  },
  {
   "property": "C54",
   "status": "proved",
   "theorems": [
    "C54_youngest_origin_base_cl",
    "C54_youngest_origin_mack_cl"
   ],
   "note": "All label and sequence selections with finite factors; all alphas."
  },
  {
   "property": "C55",
   "status": "proved",
   "theorems": [
    "C55_base_cl_recovers_pattern",
    "C55_mack_cl_recovers_pattern"
   ],
   "note": "Exclusions keep the latest ratio of each column (else a2a_avgs raises, C21). The geometric mean is assumed to lie between the extremes."
  },
  {
   "property": "C56",
   "status": "proved",
   "theorems": [
    "C56_base_cl_no_shortfall",
    "C56_mack_cl_no_shortfall"
   ],
   "note": "Whenever the selected factors are numbers (a medial average can be NaN, C20)."
  },
  {
   "property": "C57",
   "status": "proved",
   "theorems": [
    "C57_averages_between_link_ratios"
   ],
   "note": "The geometric mean is assumed to lie between the extremes; the medial average can be NaN (C20)."
  },
  {
   "property": "C58",
   "status": "proved",
   "theorems": [
    "C58_monotone_in_factors"
   ],
   "note": "Factors non-negative."
  },
  {
   "property": "C59",
   "status": "proved",
   "theorems": [
    "C59_correlation_interval",
    "C59_start_irrelevant",
    "C59_null_variance"
   ],
   "note": "Exact cdf; hypothesis: the root search converged."
  },
  {
   "property": "C60",
   "status": "proved",
   "theorems": [
    "C60_calendar_year_interval"
   ],
   "note": "Exact ppf."
  },
  {
   "property": "C61",
   "status": "proved",
   "theorems": [
    "C61_normal_quantiles",
    "C61_lognormal_quantiles",
    "C61_no_error",
    "C61_lognormal_without_positive_reserve"
   ],
   "note": "Exact ppf; quantile levels more than 1e-7 apart (C36)."
  },
  {
   "property": "C62",
   "status": "proved",
   "theorems": [
    "C62_std_errors",
    "C62_one_simulation"
   ],
   "note": "Square root over the reals; finite simulated reserves."
  },
  {
   "property": "C63",
   "status": "partial",
   "theorems": [
    "C63_point_estimates_partial",
    "C63_mean_reserve_refuted"
   ],
   "note": "The reserve is the mean ultimate less the observed latest loss, while simulated reserves use the simulated latest loss: the two differ (refuted)."
  },
  {
   "property": "C64",
   "status": "partial",
   "theorems": [
    "C64_plot_data",
    "C64_total_refuted"
   ],
   "note": "All lines proved for finite factors; the total line sums only origins whose forecast line reaches the period, so it is not the total over all origins (refuted)."
  },
  {
   "property": "C65",
   "status": "proved",
   "theorems": [
    "C65_rows",
    "C65_table"
   ],
   "note": "Missing figures are shown as 0."
  },
  {
   "property": "C66",
   "status": "partial",
   "theorems": [
    "C66_residuals_detail_partial",
    "C66_parametric",
    "C66_raises_refuted"
   ],
   "note": "Proved for every scipy whose mode is an array; with the pinned scipy 1.11.4 the property raises IndexError (refuted). The mode itself is a parameter. Square root f of cells/dof given by the root function."
  },
  {
   "property": "C67",
   "status": "proved",
   "theorems": [
    "C67_average_names",
    "C67_process_distribution"
   ],
   "note": "ASCII blanks and letters."
  },
  {
   "property": "C68",
   "status": "proved",
   "theorems": [
    "C68_averages_exist_iff",
    "C68_base_cl",
    "C68_averages_used"
   ],
   "note": "Run-off triangles of at least three periods in which every period and every origin but the last has a defined link ratio."
  },
  {
   "property": "C69",
   "status": "proved",
   "theorems": [
    "C69_type_option",
    "C69_table_format_option",
    "C69_triangle_format_option",
    "C69_shape_option",
    "C69_index_name",
    "C69_cumulative_to_incremental",
    "C69_incremental_to_cumulative"
   ],
   "note": "ASCII text. Conversion while reading proved for gap-free (run-off) triangles with positive first cells."
  },
  {
   "property": "C70",
   "status": "partial",
   "theorems": [
    "C70_normal_curve",
    "C70_lognormal_curve",
    "C70_no_error_no_curve",
    "C70_plot_drawn_refuted",
    "C70_diagnostics_drawn_refuted"
   ],
   "note": "The curves are proved for every result; that plot() and diagnostics() draw them is refuted (they read columns their tables do not have). Exact reals; exact normal quantile function as a parameter."
  },
  {
   "property": "C71",
   "status": "partial",
   "theorems": [
    "C71_combined_lines",
    "C71_faceted_lines",
    "C71_unobserved_origin_refuted"
   ],
   "note": "Both views proved for every triangle; the combined view of a triangle with an unobserved origin raises KeyError (refuted). Data handed to matplotlib only."
  },
  {
   "property": "C72",
   "status": "partial",
   "theorems": [
    "C72_panels_partial",
    "C72_losses_drawn_refuted"
   ],
   "note": "Panels, labels, ticks and the exact failure condition are proved for every result; that the losses are drawn is refuted (nothing is mapped onto the grid). Up to what is handed to the drawing library."
  },
  {
   "property": "C73",
   "status": "partial",
   "theorems": [
    "C73_histograms",
    "C73_result_unchanged_refuted"
   ],
   "note": "Samples, median lines and axis ends proved for every set of simulated reserves; that drawing leaves the result unchanged is refuted (reserve_dist gains a column)."
  },
  {
   "property": "C74",
   "status": "partial",
   "theorems": [
    "C74_simulated_records_partial",
    "C74_mean_ultimates_partial",
    "C74_any_labels",
    "C74_other_label_refuted"
   ],
   "note": "Closed form of every simulated record for run-off triangles with positive losses, factors of at least 1, first period labelled 1 and no resampled column summing to 0; any draws. C74_any_labels gives the records for any labels. With a larger first label every ultimate lacks the first resampled increment (refuted, for every such triangle)."
  },
  {
   "property": "C75",
   "status": "proved",
   "theorems": [
    "C75_one_record_each",
    "C75_reserves_from_table",
    "C75_records",
    "C75_records_any_factors"
   ],
   "note": "Keys, record types and the link to reserve_dist for every triangle with increasing labels; values of every record on run-off triangles with positive losses, factors of at least 1, first period labelled 1 and no resampled column summing to 0, for any draws; C75_records_any_factors drops the conditions on factors, labels and columns. Helper columns of the intermediate tables are not modelled."
  },
  {
   "property": "C76",
   "status": "partial",
   "theorems": [
    "C76_band_partial",
    "C76_missing_losses_partial",
    "C76_simulated_table",
    "C76_plot_refuted",
    "C76_data_refuted"
   ],
   "note": "That plot() of a bootstrap result draws anything is refuted (TypeError on every result: two keywords that do not exist). What it would draw with those keywords accepted is proved for run-off triangles with finite factors, any simulated table and any share above 1e-7. Data handed to the drawing library only."
  },
  {
   "property": "C77",
   "status": "proved",
   "theorems": [
    "C77_list_accepts",
    "C77_base_accepts",
    "C77_mack_needs_square",
    "C77_two_periods",
    "C77_mack_three_periods",
    "C77_boot_accepts_any_shape",
    "C77_boot_two_periods"
   ],
   "note": "base_cl exactly, for every shape of triangle in which every origin and period is observed; mack_cl's refusals (its acceptance of run-off triangles with four or more periods is part of C28); boot_cl asks for no particular shape."
  },
  {
   "property": "C78",
   "status": "partial",
   "theorems": [
    "C78_later_origins",
    "C78_any_origins",
    "C78_table",
    "C78_mack_any_origins",
    "C78_outside_refuted",
    "C78_mack_outside_refuted"
   ],
   "note": "Every series of assignments is covered. Averages and base_cl: unchanged for periods of the table and origins of the table or later ones; an origin between two of the table loses the link ratios of the later origins (exact result in C78_any_origins); a period outside the table or an origin before the first raises IndexError from then on. mack_cl: unchanged for periods of the table, whatever the origins; ValueError for a period outside it. Hence partial: the property itself fails in those cases."
  },
  {
   "property": "C79",
   "status": "proved",
   "theorems": [
    "C79_rounded_chain_ladder",
    "C79_rounded_cells",
    "C79_runs"
   ],
   "note": "Default selection on run-off triangles with positive losses; standard model of rounded arithmetic (relative error at most u per operation, no overflow or underflow), sums in any order."
  },
  {
   "property": "C80",
   "status": "partial",
   "theorems": [
    "C80_mack_summary_table",
    "C80_total_cv_bound",
    "C80_total_at_most_sum_refuted"
   ],
   "note": "Run-off triangles with positive losses and at least four origins. The upper bounds are proved for alpha = 1 and indicators at most 1; refuted for alpha = 2."
  },
  {
   "property": "C81",
   "status": "partial",
   "theorems": [
    "C81_triangle",
    "C81_whole_triangle_determined",
    "C81_summary",
    "C81_printed_reserve_partial",
    "C81_printed_total_partial",
    "C81_printed_reserve_refuted",
    "C81_printed_total_refuted"
   ],
   "note": "Cell texts of every triangle and of every base_cl result; the exact balance of the printed figures is refuted and proved up to one unit (reserve) and half a unit per row (totals), exactly for whole figures. Padding and line breaks are not covered; the summaries of mack_cl and boot_cl are C87."
  },
  {
   "property": "C82",
   "status": "proved",
   "theorems": [
    "C82_increments_of_cumulative_table",
    "C82_cumulated_again"
   ],
   "note": "Every table without infinities, rows in any order, pairs possibly missing or repeated; the way back for finite tables in development order, including the effect of raising a nonpositive first value to 1."
  },
  {
   "property": "C83",
   "status": "proved",
   "theorems": [
    "C83_base_cl_emergence",
    "C83_mack_cl_emergence"
   ],
   "note": "Run-off triangles with positive losses; base_cl with the simple, geometric, medial or weighted average of all the years (adding its own value does not move the geometric mean: assumed of scipy's gmean), mack_cl with any alpha and weights."
  },
  {
   "property": "C84",
   "status": "partial",
   "theorems": [
    "C84_base_cl_depends_on",
    "C84_mack_cl_depends_on_partial",
    "C84_errors_refuted"
   ],
   "note": "Factors and estimates of base_cl (any labelled average with finite factors) and mack_cl; Mack's variances and errors only if the agreeing periods include the two the last variance is extrapolated from, refuted otherwise."
  },
  {
   "property": "C85",
   "status": "proved",
   "theorems": [
    "C85_base_cl_single_origins",
    "C85_mack_cl_single_origins",
    "C85_tests_single_origins",
    "C85_volume_weighted_refuted"
   ],
   "note": "Run-off triangles with positive losses; with volume weights the property fails, as the last theorem shows."
  },
  {
   "property": "C86",
   "status": "partial",
   "theorems": [
    "C86_variance_with_exclusions_partial",
    "C86_variance_with_exclusions_refuted"
   ],
   "note": "The exact relation to the variance estimated from the included ratios, and when the two agree, for every triangle and choice of exclusions; the full property is refuted."
  },
  {
   "property": "C87",
   "status": "proved",
   "theorems": [
    "C87_mack_text",
    "C87_boot_text",
    "C87_printed_figures"
   ],
   "note": "Texts of headers, labels and cells; padding and line breaks of DataFrame.to_string are not modelled."
  },
  {
   "property": "C88",
   "status": "proved",
   "theorems": [
    "C88_base_cl_books",
    "C88_mack_cl_books",
    "C88_simple_average_refuted"
   ],
   "note": "base_cl with every volume-weighted label, mack_cl with alpha = 1; C88_simple_average_refuted shows that the averages without volume weights do not have the property."
  },
  {
   "property": "C89",
   "status": "proved",
   "theorems": [
    "C89_base_cl_periods",
    "C89_mack_cl_periods"
   ],
   "note": "base_cl with every label (the geometric mean being homogeneous), mack_cl with every alpha and every choice of link ratios; point estimates, not standard errors."
  },
  {
   "property": "C90",
   "status": "partial",
   "theorems": [
    "C90_base_cl",
    "C90_mack_partial",
    "C90_alpha_0_factors",
    "C90_alpha_0_refuted"
   ],
   "note": "Averages, base_cl with every selection, and mack_cl with alpha >= 1; refuted for alpha = 0, where the indicators of cells without a link ratio are counted in the denominator (exact factors in C90_alpha_0_factors)."
  },
  {
   "property": "C91",
   "status": "proved",
   "theorems": [
    "C91_rounded_weighted_windows",
    "C91_rounded_simple_averages",
    "C91_rounded_mack",
    "C91_rounded_given_factors",
    "C91_runs",
    "C91_rounded_medial_refuted"
   ],
   "note": "Ultimates, reserves and totals of base_cl with weighted and simple averages and with given factors, and of mack_cl; C91_rounded_medial_refuted is the statement's last sentence. Geometric averages (scipy's function) and Mack's standard errors are outside the statement."
  },
  {
   "property": "C92",
   "status": "proved",
   "theorems": [
    "C92_boot_units"
   ],
   "note": "Units in the ratio k^2 with k rational (the residuals are divided by a square root, and the model's numbers are rational); the square root is used only at the fitted increments, where its homogeneity is a hypothesis, as is that of the random numbers (numpy resamples by position and multiplies a standard gamma variate by the scale)."
  },
  {
   "property": "C93",
   "status": "proved",
   "theorems": [
    "C93_boot_refuses_iff"
   ],
   "note": "Run-off triangles with positive losses, at least three origins and default column names; indicators that keep the latest link ratios (else C21), a last period that follows at the smallest step (else C22). Exact arithmetic; the square root only needs a sign law."
  },
  {
   "property": "C94",
   "status": "partial",
   "theorems": [
    "C94_boot_labels_partial",
    "C94_first_label_refuted"
   ],
   "note": "Any increasing origins and periods, any draws, provided the label 1 stands at the same place in both lists of periods (or in neither); refuted otherwise: the code recognises the first period by comparing its label with 1."
  },
  {
   "property": "C95",
   "status": "partial",
   "theorems": [
    "C95_youngest_origin_boot_cl_partial",
    "C95_last_factor_below_1_refuted"
   ],
   "note": "Any replacement value, any draws in which a gamma variate depends on its position and its own parameters (numpy's rejection sampler can shift later variates of the same stream when a shape changes; that is outside the model). Proved when the last factor is at least 1, whatever the others; with a last factor below 1 the claim is false of the code, and a concrete triangle shows it."
  },
  {
   "property": "C96",
   "status": "partial",
   "theorems": [
    "C96_base_cl_latest_raised_partial",
    "C96_mack_cl_latest_raised",
    "C96_medial_with_ties_refuted"
   ],
   "note": "Proved for base_cl with simple, geometric and weighted averages, for medial averages when the included link ratios of a period are distinct, and for mack_cl with every alpha and weights. False of the medial averages with ties (code defect): they leave out every link ratio equal to the lowest or highest, so raising one of two tied ratios can lower the average; refuted with a witness."
  },
  {
   "property": "C97",
   "status": "partial",
   "theorems": [
    "C97_latest_resampled_partial",
    "C97_origin_wiped_out_refuted",
    "C97_no_uncertainty_refuted"
   ],
   "note": "Proved when no development factor is below 1. False of the code for every triangle whose first factor below 1 is not the last one: the square root of a negative fitted increment is NaN, NaN is replaced by 0, and the origin whose latest period follows that factor has latest, ultimate and reserve 0 in every simulation."
  },
  {
   "property": "C98",
   "status": "proved",
   "theorems": [
    "C98_simulated_records",
    "C98_origins_without_reserve",
    "C98_summary"
   ],
   "note": "Closed form of every simulated record of every run-off triangle with positive losses and at least three origins: any factors (also below 1), any labels, any draws, resampled columns summing to 0 included; C98_summary gives the rows and totals of the summary. Hypotheses: a positive finite scale parameter and finite draws."
  },
  {
   "property": "C99",
   "status": "proved",
   "theorems": [
    "C99_process_error",
    "C99_summary_unbiased"
   ],
   "note": "Probability is a finite weighted family of runs; the gamma law enters through its mean, its variance and zero correlation between the variates of one origin in one simulation, all three at the shapes the run itself uses. Any factors, any labels, any residuals drawn, a positive finite scale parameter."
  },
  {
   "property": "C100",
   "status": "partial",
   "theorems": [
    "C100_separate_numbers_partial",
    "C100_integer_seed_refuted"
   ],
   "note": "Proved for random_state a RandomState and for None; false for every integer, where both stages restart from the same seed. A generator is the infinite sequence of raw numbers it gives; how many numbers a draw takes and how they are turned into residuals and variates is arbitrary."
  },
  {
   "property": "C101",
   "status": "partial",
   "theorems": [
    "C101_latest_moments_partial",
    "C101_unbiased_iff",
    "C101_squares",
    "C101_unbiased_refuted",
    "C101_falling_losses",
    "C101_overstated_refuted"
   ],
   "note": "Exact mean and variance of a simulated latest loss over all draws, and exactly when the mean is the observed one: when the residuals add up to 0. The code does not centre them, so the claim is refuted in general (C101_unbiased_refuted). With a factor below 1 on the way to the latest period the mean is too large by the fitted decreases (C101_falling_losses), even for draws of mean 0 (C101_overstated_refuted). The oldest origin only for triangles whose first period is labelled 1; origins whose latest period is itself reached with a factor below 1 are those of C97; the variance needs factors of at least 1 and exact roots of the fitted increments."
  },
  {
   "property": "C102",
   "status": "partial",
   "theorems": [
    "C102_same_draws_same_records_partial",
    "C102_order_of_simulations_partial",
    "C102_tables_partial",
    "C102_same_draws_refuted"
   ],
   "note": "Proved for run-off triangles with positive losses whose last factor is at least 1, whatever the others, and any finite draws; false with a last factor below 1, where the last factor of a simulation comes from the simulation before (C42): two simulations of one run without noise differ (refuted)."
  }
 ]
}