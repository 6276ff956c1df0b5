{"id": "C01", "title": "Incremental triangle cells are group totals", "statement": "totri(df, tri_type='incr') returns, at every (origin, dev) label pair, the sum of all records of df with that origin and dev (NaN records counted as 0; records of the earliest dev with a value <= 0 counted as 1), and NaN exactly where df has no record; its index/columns are exactly the distinct origins/devs in increasing order.", "quantifier": "all tabular frames: any number of records, any order, duplicates, NaN/inf values, any integer labels", "why_tests_cant": "A suite checks a handful of bundled data sets; the claim ranges over every record multiset and order.", "anchors": ["trikit/triangle.py:_BaseTriangle.__init__", "trikit/triangle.py:_neg_handler", "trikit/triangle.py:totri"]}
{"id": "C02", "title": "Incremental triangle does not depend on record order", "statement": "Two frames that are permutations of each other give the same incremental triangle.", "quantifier": "all tables and all permutations of their rows", "why_tests_cant": "n! orders per table.", "anchors": ["trikit/triangle.py:_BaseTriangle.__init__"]}
{"id": "C03", "title": "Cumulative triangle cells are running totals by development", "statement": "totri(df, tri_type='cum') holds at (origin, dev) the total of the origin's records with development <= dev.", "quantifier": "all tabular frames", "why_tests_cant": "The claim is for all record orders and multiplicities; bundled data is pre-sorted and unique, so tests never reach the failing inputs.", "anchors": ["trikit/triangle.py:_BaseCumTriangle.__init__", "trikit/triangle.py:totri", "trikit/utils.py:_load_lrdb"]}
{"id": "C04", "title": "Records of several companies aggregate into one cumulative triangle", "statement": "When several record blocks (companies) are stacked and passed to totri(tri_type='cum'), the result is the cell-wise sum of the blocks' cumulative triangles (documented in load_lrdb).", "quantifier": "all stacks of record blocks", "why_tests_cant": "Needs every stack of blocks; the suite has no multi-company case.", "anchors": ["trikit/utils.py:_load_lrdb", "trikit/triangle.py:_BaseCumTriangle.__init__"]}
{"id": "C05", "title": "Missing actuals are filled", "statement": "After totri(tri_type='cum'), every cell at or above the last observed row of its column is populated: the first column with 1.0, later ones carried forward from the previous development period; observed cells are unchanged and cells below are left NaN.", "quantifier": "all tables, with arbitrary gap patterns", "why_tests_cant": "2^(rows*cols) gap patterns.", "anchors": ["trikit/triangle.py:totri", "trikit/triangle.py:triind"]}
{"id": "C06", "title": "totri does not modify the caller's frame", "statement": "totri returns without changing the frame passed in, in every mode and also when the constructors rewrite values or add columns.", "quantifier": "all frames and argument combinations", "why_tests_cant": "Aliasing must be excluded on every path.", "anchors": ["trikit/triangle.py:totri", "trikit/triangle.py:_neg_handler", "trikit/triangle.py:_BaseCumTriangle.__init__"]}
{"id": "C07", "title": "to_incr and to_cum are mutually inverse", "statement": "For a cumulative triangle whose rows are gap-free and whose first column is positive, tri.to_incr().to_cum() has the same labels and cells as tri; for such an incremental triangle, tri.to_cum().to_incr() likewise.", "quantifier": "all gap-free triangles of any size and any values", "why_tests_cant": "Unbounded sizes and real values.", "anchors": ["trikit/triangle.py:IncrTriangle.to_cum", "trikit/triangle.py:CumTriangle.to_incr"]}
{"id": "C08", "title": "Building incremental then cumulating equals building cumulative", "statement": "totri(df,'incr').to_cum() equals totri(df,'cum').", "quantifier": "all tabular frames", "why_tests_cant": "Must hold for every sign pattern of first-development values.", "anchors": ["trikit/triangle.py:totri", "trikit/triangle.py:_neg_handler", "trikit/triangle.py:IncrTriangle.to_cum"]}
{"id": "C09", "title": "Cumulative tabular input is reproduced", "statement": "totri(df, tri_type='cum', data_format='cum') holds exactly df's cumulative value at each recorded (origin, dev), values <= 0 of the earliest dev being replaced by 1, whatever the row order.", "quantifier": "all tables of cumulative values with unique keys, any row order", "why_tests_cant": "All orders and values.", "anchors": ["trikit/triangle.py:totri"]}
{"id": "C10", "title": "Triangle-shaped input is reproduced", "statement": "totri(tri, data_shape='triangle', data_format=<type of tri>) returns a triangle with the labels and cells of tri.", "quantifier": "all gap-free triangle-shaped frames", "why_tests_cant": "Unbounded sizes.", "anchors": ["trikit/triangle.py:totri"]}
{"id": "C11", "title": "latest is the last observed value of each origin", "statement": "tri.latest has one record per origin, in origin order, holding the label and value of that origin's last non-NaN cell; latest_by_origin and latest_by_devp are the same values keyed by origin and by dev.", "quantifier": "all triangles", "why_tests_cant": "All NaN patterns.", "anchors": ["trikit/triangle.py:latest", "trikit/triangle.py:latest_by_origin", "trikit/triangle.py:latest_by_devp"]}
{"id": "C12", "title": "triind, maturity, rlvi and clvi agree with the cells", "statement": "triind is 1 exactly on the cells below the last non-NaN cell of their column; maturity is each origin's last development period with triind = 0; on a run-off triangle triind marks exactly the NaN cells and maturity equals the dev of latest.", "quantifier": "all triangles (first part) / all run-off triangles of any size (second part)", "why_tests_cant": "All NaN patterns and sizes.", "anchors": ["trikit/triangle.py:triind", "trikit/triangle.py:maturity", "trikit/triangle.py:rlvi", "trikit/triangle.py:clvi"]}
{"id": "C13", "title": "diagonal(offset) returns the offset-th diagonal", "statement": "On an n-by-n run-off triangle diagonal(0) equals latest, diagonal(-k) lists cells (i, n-1-k-i) in origin order (n-k records), and |offset| > n-1 raises ValueError.", "quantifier": "all n, all offsets", "why_tests_cant": "Unbounded sizes and offsets.", "anchors": ["trikit/triangle.py:diagonal"]}
{"id": "C14", "title": "to_tbl is a faithful table and totri inverts it", "statement": "to_tbl lists exactly the non-NaN cells in (origin, dev) order without duplicates, and with dropna=False all cells; rebuilding an incremental triangle from its to_tbl gives the same triangle.", "quantifier": "all triangles", "why_tests_cant": "All sizes and NaN patterns.", "anchors": ["trikit/triangle.py:to_tbl", "trikit/triangle.py:_BaseTriangle.__init__"]}
{"id": "C15", "title": "Custom column names behave like default names", "statement": "A triangle built with origin=, dev=, value= overrides supports the same operations with the same results as one built from the renamed frame.", "quantifier": "all column names", "why_tests_cant": "All names; the suite only checks the constructor's return type.", "anchors": ["trikit/triangle.py:to_tbl", "trikit/triangle.py:latest", "trikit/triangle.py:totri", "trikit/triangle.py:to_cum"]}
{"id": "C16", "title": "Invalid arguments are rejected", "statement": "totri raises when a named column is absent, when data_shape, data_format or tri_type is not one of the documented options.", "quantifier": "all argument strings and column sets", "why_tests_cant": "All strings.", "anchors": ["trikit/triangle.py:_validate", "trikit/triangle.py:totri"]}
{"id": "C17", "title": "a2a cells are adjacent ratios", "statement": "tri.a2a at (o, d_k) is cell(o, d_{k+1}) / cell(o, d_k) wherever both are observed and NaN elsewhere; an n-by-n run-off triangle of positive losses gives an (n-1)-by-(n-1) run-off a2a.", "quantifier": "all triangles / all n", "why_tests_cant": "Unbounded.", "anchors": ["trikit/triangle.py:a2a"]}
{"id": "C18", "title": "a2aind reflects the history of updates", "statement": "After any sequence of a2aind assignments, each a2aind cell holds the last value assigned to it, or 1/0 for an observed/unobserved link ratio if never assigned; nothing else changes.", "quantifier": "all triangles and all finite histories of updates", "why_tests_cant": "Histories are unbounded.", "anchors": ["trikit/triangle.py:a2aind"]}
{"id": "C19", "title": "a2a_avgs entries are the documented averages", "statement": "For a run-off triangle of positive losses and every window k, simple-k/all-simple are arithmetic means of the latest k (all) link ratios of the column, and weighted-k/all-weighted are sum C(.,j+1)/sum C(.,j) over those rows; labels are unique; the all-weighted factor lies between the smallest and largest link ratio of its column.", "quantifier": "all n >= 2, all positive triangles, all windows and columns", "why_tests_cant": "Unbounded.", "anchors": ["trikit/triangle.py:a2a_avgs", "trikit/triangle.py:_simple"]}
{"id": "C20", "title": "medial average", "statement": "The medial rows of a2a_avgs() hold, for the link ratios of their window, the mean of the values that differ from both the minimum and the maximum; the common value when all are equal; the mean of both for two values; NaN when nothing remains; it is invariant under permutation and lies between min and max when not NaN.", "quantifier": "all non-empty finite value lists", "why_tests_cant": "All lists.", "anchors": ["trikit/triangle.py:_medial"]}
{"id": "C21", "title": "Link ratios switched off through a2aind do not influence the chain ladder", "statement": "After tri.a2aind = (o, d, 0), the factors used by base_cl and by mack_cl at d are computed without the link ratio of origin o.", "quantifier": "all triangles, all excluded cells, all averages", "why_tests_cant": "All cells and averages.", "anchors": ["trikit/triangle.py:a2aind", "trikit/triangle.py:a2a_avgs", "trikit/estimators/mack.py:_ldfs"]}
{"id": "C22", "title": "cldfs are the products of the remaining ldfs", "statement": "The cumulative factor at each development period is the product of the selected ldf at that and all later periods including the tail; emergence is its reciprocal.", "quantifier": "all ldf vectors and tails", "why_tests_cant": "Unbounded lengths.", "anchors": ["trikit/estimators/base.py:_cldfs", "trikit/estimators/base.py:__call__"]}
{"id": "C23", "title": "ultimate = latest x cldf at the origin's maturity; reserve = ultimate - latest; total = sum", "statement": "In base_cl's summary every origin's ultimate is latest times the cldf shown for its maturity, reserve is ultimate minus latest, and the total row is the sum of the origin rows.", "quantifier": "all triangles base_cl accepts, all ldf selections and tails", "why_tests_cant": "All shapes; tests use standard n-by-n triangles only.", "anchors": ["trikit/estimators/base.py:_ultimates", "trikit/estimators/base.py:_reserves", "trikit/estimators/base.py:__call__"]}
{"id": "C24", "title": "The squared triangle keeps actuals and develops forecasts", "statement": "trisqrd equals the triangle on observed cells, every forecast cell is the origin's latest value times the intermediate ldfs, and its 'ultimate' column equals the summary ultimates.", "quantifier": "all n-by-n run-off triangles, all ldfs/tails", "why_tests_cant": "Unbounded.", "anchors": ["trikit/estimators/base.py:_trisqrd"]}
{"id": "C25", "title": "Scaling losses scales the estimates", "statement": "Multiplying all losses by c > 0 leaves ldfs, cldfs and emergence unchanged and multiplies latest, ultimate and reserve (rows and total) by c.", "quantifier": "all n-by-n positive run-off triangles and all c > 0", "why_tests_cant": "Unbounded.", "anchors": ["trikit/estimators/base.py:__call__", "trikit/triangle.py:a2a_avgs"]}
{"id": "C26", "title": "Explicit ldf selections", "statement": "Passing the values of a2a_avgs().loc[s] as list/array gives the same estimates as passing the label s; a list/array/Series of the wrong length is rejected; the sequence passed in is not modified, so that the call can be repeated.", "quantifier": "all triangles, all sequences", "why_tests_cant": "All sequences and repeated calls.", "anchors": ["trikit/estimators/base.py:BaseChainLadder.__call__"]}
{"id": "C27", "title": "Reserving is read-only and repeatable", "statement": "Any history of property reads and estimator calls on a triangle returns, at every step, what a first call on a fresh triangle returns: neither lazily cached properties nor estimators disturb later results.", "quantifier": "all histories of reads/calls interleaved with a2aind updates", "why_tests_cant": "Histories are unbounded.", "anchors": ["trikit/triangle.py:_BaseTriangle", "trikit/estimators/base.py:__call__", "trikit/estimators/mack.py:__call__"]}
{"id": "C28", "title": "Mack point estimates coincide with the chain ladder", "statement": "mack_cl(alpha=1) has the ldfs, ultimates and reserves of base_cl('all-weighted'), and mack_cl(alpha=0) those of base_cl('all-simple').", "quantifier": "all n-by-n run-off triangles of positive losses, n >= 4", "why_tests_cant": "Unbounded.", "anchors": ["trikit/estimators/mack.py:_ldfs", "trikit/estimators/mack.py:__call__"]}
{"id": "C29", "title": "Mack alpha-weighted factors", "statement": "For every alpha the Mack ldf of a column is the average of its included link ratios weighted by C^alpha, excluded (a2aind = 0) ratios having no influence; for alpha = 2 it minimises sum (C_{k+1} - f C_k)^2.", "quantifier": "all triangles, alphas and exclusion patterns", "why_tests_cant": "Unbounded.", "anchors": ["trikit/estimators/mack.py:_ldfs", "trikit/estimators/mack.py:mod_a2aind", "trikit/estimators/mack.py:mod_tri"]}
{"id": "C30", "title": "Process error is Mack's formula", "statement": "The process error of each origin equals C_{i,n}^2 * sum_k (sigma_k^2/f_k^2)/C_{i,k} over its future development periods (Mack 1993).", "quantifier": "all n-by-n run-off triangles, any ldfs and variances", "why_tests_cant": "Recursion of unbounded depth.", "anchors": ["trikit/estimators/mack.py:_process_error"]}
{"id": "C31", "title": "Parameter error closed form", "statement": "The parameter error of each origin equals latest^2 * (prod(f_k^2 + v_k) - prod f_k^2) over its future development periods.", "quantifier": "all n-by-n run-off triangles, any ldfs and ldf variances", "why_tests_cant": "Recursion of unbounded depth.", "anchors": ["trikit/estimators/mack.py:_parameter_error"]}
{"id": "C32", "title": "Mack variances are well-formed", "statement": "devpvar is Mack's sigma^2 estimator with the extrapolated last value min(s_{n-2}^4/s_{n-3}^2, s_{n-3}^2, s_{n-2}^2); ldfvar, process error, parameter error and mse are non-negative, and the oldest origin's are 0.", "quantifier": "all n-by-n positive run-off triangles, n >= 4", "why_tests_cant": "Unbounded.", "anchors": ["trikit/estimators/mack.py:_devp_variance", "trikit/estimators/mack.py:_ldf_variance", "trikit/estimators/mack.py:_mean_squared_error"]}
{"id": "C33", "title": "Aggregate mse is at least the sum of origin mses and follows Mack's formula", "statement": "The total mse equals sum_i { mse_i + 2 C_{i,n} (sum_{j>i} C_{j,n}) sum_k (sigma_k^2/f_k^2)/sum_l C_{l,k} } and is >= the sum of the origins' mse.", "quantifier": "all n-by-n positive run-off triangles", "why_tests_cant": "Unbounded.", "anchors": ["trikit/estimators/mack.py:__call__"]}
{"id": "C34", "title": "Mack reserve distributions are moment matched", "statement": "The fitted normal/lognormal of each origin and of the total has mean equal to the reserve and standard deviation equal to std_error.", "quantifier": "all positive reserves and standard errors", "why_tests_cant": "Real-valued parameters.", "anchors": ["trikit/estimators/mack.py:__call__"]}
{"id": "C35", "title": "Quantile vectors", "statement": "The quantile columns of mack_cl, boot_cl and get_quantiles are for the requested quantiles sorted and without duplicates (two_sided: exactly the values (1-q)/2 and (1+q)/2), all in [0,1], and raises ValueError if any requested quantile lies outside [0,1]; get_quantiles inherits the rejection.", "quantifier": "all quantile lists", "why_tests_cant": "All lists.", "anchors": ["trikit/estimators/base.py:_qtls_formatter", "trikit/estimators/mack.py:get_quantiles", "trikit/estimators/bootstrap.py:get_quantiles"]}
{"id": "C36", "title": "Every requested quantile gets its own column", "statement": "The quantile headers of distinct quantiles are distinct, so the summary and get_quantiles have one column per distinct requested quantile.", "quantifier": "all quantile lists", "why_tests_cant": "All pairs of reals.", "anchors": ["trikit/estimators/base.py:_qtls_formatter", "trikit/estimators/bootstrap.py:get_quantiles"]}
{"id": "C37", "title": "Percentiles", "statement": "Linear percentiles of a reserve sample are monotone in q, lie between the sample minimum and maximum, are the minimum at 0 and maximum at 1; with lb given, get_quantiles returns max(value, lb).", "quantifier": "all samples and all q", "why_tests_cant": "All samples.", "anchors": ["trikit/estimators/bootstrap.py:get_quantiles", "trikit/estimators/bootstrap.py:__call__"]}
{"id": "C38", "title": "Bootstrap fitted triangle reproduces margins", "statement": "The fitted cumulative triangle keeps the latest diagonal and has adjacent ratios equal to the ldfs; with all-weighted ldfs the fitted incremental triangle has the same row totals and column totals as the actual incremental triangle.", "quantifier": "all n-by-n positive run-off triangles", "why_tests_cant": "Unbounded.", "anchors": ["trikit/estimators/bootstrap.py:_tri_fit_cum", "trikit/estimators/bootstrap.py:_tri_fit_incr"]}
{"id": "C39", "title": "Degrees of freedom", "statement": "dof is the number of observed cells minus the number of fitted parameters (origins + development periods - 1).", "quantifier": "all triangles", "why_tests_cant": "Tests pin one dataset's value, here the wrong one.", "anchors": ["trikit/estimators/bootstrap.py:dof", "trikit/estimators/bootstrap.py:_scale_param"]}
{"id": "C40", "title": "Sampling distribution", "statement": "The residuals resampled are exactly the adjusted residuals that are neither NaN nor zero; restricting to all but the last row and column drops only zeros and NaNs.", "quantifier": "all n-by-n positive run-off triangles", "why_tests_cant": "Unbounded.", "anchors": ["trikit/estimators/bootstrap.py:_sampling_dist", "trikit/estimators/bootstrap.py:_resid_us"]}
{"id": "C41", "title": "Noise-free bootstrap reproduces the chain ladder", "statement": "If every resampled residual is 0 and every gamma draw equals its mean, every simulation's ldfs equal the all-weighted ldfs and every simulated ultimate/reserve equals the chain ladder ultimate/reserve of the origin.", "quantifier": "all n-by-n run-off triangles, all simulation counts, all development labels", "why_tests_cant": "Unbounded simulations; needs a degenerate generator.", "anchors": ["trikit/estimators/bootstrap.py:_bs_samples", "trikit/estimators/bootstrap.py:_bs_ldfs", "trikit/estimators/bootstrap.py:_bs_forecasts", "trikit/estimators/bootstrap.py:_bs_process_error", "trikit/estimators/bootstrap.py:_bs_reserves"]}
{"id": "C42", "title": "Simulations are independent of each other and reproducible", "statement": "The results of simulation s are a function of the draws of simulation s only (no leakage across simulation or origin boundaries of the flat table), and an integer random_state determines the whole result.", "quantifier": "all triangles, draw sequences and simulation counts", "why_tests_cant": "Every draw sequence.", "anchors": ["trikit/estimators/bootstrap.py:_bs_ldfs", "trikit/estimators/bootstrap.py:_bs_forecasts", "trikit/estimators/bootstrap.py:_bs_process_error"]}
{"id": "C43", "title": "Bootstrap reserves", "statement": "In every simulation reserve = ultimate - latest for every origin, the oldest origin's reserve is 0, and there is one record per (sim, origin).", "quantifier": "all draws", "why_tests_cant": "Every draw sequence.", "anchors": ["trikit/estimators/bootstrap.py:_bs_reserves"]}
{"id": "C44", "title": "Spearman coefficients are correlation coefficients", "statement": "Each T_k lies in [-1, 1], equals 1 when both rankings agree and -1 when they are opposite; the total statistic lies in [-1,1].", "quantifier": "all run-off triangles with distinct link ratios per column", "why_tests_cant": "All rankings.", "anchors": ["trikit/estimators/mack.py:_spearman_corr_coeffs", "trikit/estimators/mack.py:_spearman_corr_total", "trikit/triangle.py:ranked_a2a"]}
{"id": "C45", "title": "Calendar-year statistic", "statement": "E_Z and V_Z are the exact mean and variance of min(S, n - S) for S ~ Binomial(n, 1/2), and row j counts exactly the low/high link ratios on calendar diagonal j.", "quantifier": "all n >= 1 / all run-off triangles", "why_tests_cant": "Unbounded n.", "anchors": ["trikit/estimators/mack.py:_cy_effects_table", "trikit/triangle.py:a2a_assignment"]}
{"id": "C46", "title": "load_lrdb filters", "statement": "load_lrdb returns exactly the records matching every given filter (lob, grcode, grname, train_only) in file order with the requested loss column as value, and raises ValueError when a filter value is absent.", "quantifier": "all databases and filter combinations", "why_tests_cant": "All databases/filters.", "anchors": ["trikit/utils.py:_load_lrdb"]}
{"id": "C47", "title": "Dataset catalogue", "statement": "get_datasets is sorted, lists every dataset but lrdb, and every listed name is accepted by load while unknown names raise KeyError; get_lrdb_specs lists each (lob, grcode, grname) combination exactly once.", "quantifier": "all dataset references / databases", "why_tests_cant": "All.", "anchors": ["trikit/utils.py:_get_datasets", "trikit/utils.py:_load", "trikit/utils.py:_get_lrdb_specs", "trikit/utils.py:_get_lrdb_lobs"]}
{"id": "C48", "title": "Y-axis ticks cover the data", "statement": "For every positive maximum loss the facet plots' ticks start at 0 and the top tick exceeds the maximum.", "quantifier": "all positive reals", "why_tests_cant": "All magnitudes.", "anchors": ["trikit/estimators/base.py:_get_yticks"]}
{"id": "C49", "title": "Standardised residuals", "statement": "The diagnostic residuals are scaled by the sample standard deviation sqrt(sum r^2 / (n-1)).", "quantifier": "all residual vectors", "why_tests_cant": "All.", "anchors": ["trikit/estimators/mack.py:_residuals_by_devp", "trikit/estimators/mack.py:_residuals_by_origin"]}
{"id": "C50", "title": "Mack ignores tail", "statement": "mack_cl's estimates do not depend on tail (documented as not implemented) and equal those with tail 1.", "quantifier": "all triangles and tails", "why_tests_cant": "All tails.", "anchors": ["trikit/estimators/mack.py:__call__"]}
{"id": "C51", "title": "From the user's records to the estimates", "statement": "totri on the incremental records of a complete run-off table (any order of records, columns in any order) succeeds, and base_cl and mack_cl on its result give, per origin, the chain ladder / Mack estimates computed directly from the records, after any history of reads and calls on the triangle.", "quantifier": "all record tables of n origins and n development periods with positive cumulative losses, all tails, all read histories", "why_tests_cant": "Tables, orders and histories are unbounded; tests compose the steps on one dataset.", "anchors": ["trikit/triangle.py:totri", "trikit/estimators/base.py:BaseChainLadder.__call__", "trikit/estimators/mack.py:MackChainLadder.__call__"]}
{"id": "C52", "title": "Mack estimates and the currency unit", "statement": "Multiplying all losses by c > 0 leaves mack_cl's ldfs, ldf variances and emergence unchanged, multiplies latest, ultimate and reserve by c and mean squared errors by c^2 (so std_error by c), for every alpha.", "quantifier": "all n-by-n positive run-off triangles, all c > 0, all alphas and exclusion patterns", "why_tests_cant": "Unbounded.", "anchors": ["trikit/estimators/mack.py:__call__", "trikit/estimators/mack.py:_process_error", "trikit/estimators/mack.py:_parameter_error", "trikit/estimators/mack.py:_devp_variance"]}
{"id": "C53", "title": "Labels do not influence the estimates", "statement": "Relabelling origins and development periods, e.g. months instead of years, leaves a2a_avgs, and all figures of base_cl and mack_cl, unchanged; only the labels of the results change. (For base_cl and mack_cl the last step between periods must be the smallest; at any other spacing the oldest origin's cldf and emergence are missing and nothing else differs.)", "quantifier": "all n-by-n positive run-off triangles, all pairs of label lists, all selections", "why_tests_cant": "All labellings.", "anchors": ["trikit/triangle.py:a2a_avgs", "trikit/estimators/base.py:__call__", "trikit/estimators/mack.py:__call__", "trikit/estimators/base.py:_ldfs"]}
{"id": "C54", "title": "The youngest origin's value affects only its own estimate", "statement": "Changing the only observation of the youngest origin changes no average, factor or variance and no other origin's estimate or standard error.", "quantifier": "all n-by-n positive run-off triangles and replacement values, all selections, alphas", "why_tests_cant": "All values.", "anchors": ["trikit/triangle.py:a2a_avgs", "trikit/estimators/base.py:__call__", "trikit/estimators/mack.py:__call__"]}
{"id": "C55", "title": "Exact development patterns are recovered", "statement": "If cumulative losses are a_i*b_j, every average of every window, whatever ratios are excluded, equals b_{j+1}/b_j, base_cl and mack_cl (any alpha) return ultimates a_i*b_{n-1} (times tail for base_cl), and mack_cl's errors are 0.", "quantifier": "all patterns and amounts, all labels of a2a_avgs, all alphas", "why_tests_cant": "Unbounded.", "anchors": ["trikit/triangle.py:a2a_avgs", "trikit/estimators/base.py:__call__", "trikit/estimators/mack.py:__call__"]}
{"id": "C56", "title": "No negative reserves for non-decreasing losses", "statement": "If no cumulative loss decreases over development and tail >= 1, every origin's ultimate is at least its latest loss and its reserve is non-negative, for every average and alpha.", "quantifier": "all n-by-n positive non-decreasing run-off triangles, all labels, alphas, exclusion patterns", "why_tests_cant": "Unbounded.", "anchors": ["trikit/triangle.py:a2a_avgs", "trikit/estimators/base.py:__call__", "trikit/estimators/mack.py:__call__"]}
{"id": "C57", "title": "Averages lie between the observed link ratios", "statement": "Every number in a2a_avgs() lies between the smallest and the largest link ratio of its column.", "quantifier": "all n-by-n positive run-off triangles, all averages and windows, all exclusion patterns keeping the latest ratio", "why_tests_cant": "Unbounded.", "anchors": ["trikit/triangle.py:a2a_avgs", "trikit/triangle.py:_medial", "trikit/triangle.py:_weighted"]}
{"id": "C58", "title": "Larger factors never lower an estimate", "statement": "If one base_cl result on a triangle has factors (tail included) at least as large as another's, so are its ultimates, reserves and totals.", "quantifier": "all n-by-n positive run-off triangles, all pairs of factor selections and tails", "why_tests_cant": "All factor vectors.", "anchors": ["trikit/estimators/base.py:__call__", "trikit/estimators/base.py:_cldfs", "trikit/estimators/base.py:_ultimates"]}
{"id": "C59", "title": "Development correlation test", "statement": "devp_corr_test(p) returns the central interval of probability p of a normal law with mean 0 and variance 1/((n-2)(n-3)/2), the variance of the weighted mean of independent Spearman coefficients under random rankings; the random starting point of the root search does not influence it.", "quantifier": "all n-by-n positive run-off triangles (n > 3), all 0 < p < 1, all starting points", "why_tests_cant": "Every triangle size and p, every random state.", "anchors": ["trikit/estimators/mack.py:devp_corr_test", "trikit/estimators/mack.py:_devp_corr_test_var", "trikit/estimators/mack.py:_spearman_corr_total"]}
{"id": "C60", "title": "Calendar year test", "statement": "cy_effects_test(p) returns the observed total Z and an interval symmetric around the sum of the exact expectations, enclosing probability 1-p of the normal law with the summed exact means and variances; the summed variance is never negative.", "quantifier": "all n-by-n positive run-off triangles (n > 2), all 0 < p <= 1", "why_tests_cant": "Every triangle and p.", "anchors": ["trikit/estimators/mack.py:cy_effects_test", "trikit/estimators/mack.py:_cy_effects_table"]}
{"id": "C61", "title": "Reserve quantiles are quantiles of the fitted law", "statement": "Every quantile reported by mack_cl's summary and get_quantiles for a row with positive standard error is the quantile of the fitted law (normal with the row's reserve and standard error; lognormal): increasing in the level, two-sided columns of level c enclose probability c, the normal ones symmetrically around the reserve, the normal median is the reserve and the lognormal median is below the mean.", "quantifier": "all Mack results, all rows incl. total, all quantile requests (more than 1e-7 apart)", "why_tests_cant": "Every level and every row of every triangle.", "anchors": ["trikit/estimators/mack.py:__call__", "trikit/estimators/mack.py:get_quantiles", "trikit/estimators/base.py:_qtls_formatter"]}
{"id": "C62", "title": "Bootstrap standard errors", "statement": "The std_error column of boot_cl's summary is, per origin, the sample standard deviation of the simulated reserves (divisor sims-1), never negative; cv is std_error/reserve; the total's std_error is that of the simulated reserve totals and never exceeds the sum of the origins' standard errors. With one simulation every std_error is NaN.", "quantifier": "all bootstrap fits, all numbers of simulations, all random draws", "why_tests_cant": "Every draw sequence and simulation count.", "anchors": ["trikit/estimators/bootstrap.py:__call__", "trikit/estimators/bootstrap.py:_bs_std_error"]}
{"id": "C63", "title": "Bootstrap point estimates", "statement": "The summary's ultimate is the mean of the simulated ultimates, and its reserve the mean of the simulated reserves, of each origin and of the total.", "quantifier": "all bootstrap fits, all numbers of simulations, all random draws", "why_tests_cant": "Every draw sequence and simulation count.", "anchors": ["trikit/estimators/bootstrap.py:__call__", "trikit/estimators/bootstrap.py:_bs_reserves"]}
{"id": "C64", "title": "Data drawn by plot()", "statement": "Each origin's actual line is its observed values; its forecast line starts at the latest of them, follows the selected factors and ends one step after the last period at the summary's ultimate and reserve; the total line is the total over all origins and ends at the summary's totals.", "quantifier": "all n-by-n run-off triangles (n > 1), all factor selections", "why_tests_cant": "All triangles and selections.", "anchors": ["trikit/estimators/base.py:_data_transform", "trikit/estimators/base.py:plot"]}
{"id": "C65", "title": "Distribution by origin and simulation", "statement": "origin_dist of a bootstrap result lists, for each simulation in order, every origin once in order and a total; the rows show the figures of reserve_dist, the total is the sum over the origins, and reserve = ultimate - latest in every row.", "quantifier": "all triangles with increasing labels, all numbers of simulations, all random draws", "why_tests_cant": "Every draw sequence and simulation count.", "anchors": ["trikit/estimators/bootstrap.py:origin_dist", "trikit/estimators/bootstrap.py:__call__"]}
{"id": "C66", "title": "Residual statistics", "statement": "residuals_detail of a non-parametric bootstrap gives size, sum, sum of squares, extremes, mean, variance, standard deviation, median, skewness, kurtosis and coefficient of variation of the non-zero residuals; the adjusted column is the unscaled one times sqrt(cells/dof) (same size, skewness, kurtosis, coefficient of variation); sums of squares are scale parameter times dof, and times the number of cells. For a parametric bootstrap it is None.", "quantifier": "all triangles with finite residuals that are not all 0", "why_tests_cant": "Every residual table.", "anchors": ["trikit/estimators/bootstrap.py:residuals_detail", "trikit/estimators/bootstrap.py:_resid_adj", "trikit/estimators/bootstrap.py:_scale_param"]}
{"id": "C67", "title": "Accepted names", "statement": "A triangle of n origins offers exactly the averages all-kind and kind-k (kind simple, geometric, medial, weighted; 1 <= k <= n-2), each once, and base_cl raises KeyError for any other name; boot_cl accepts exactly gamma, in any case and with surrounding blanks, as process distribution and fails otherwise.", "quantifier": "all triangles, all strings", "why_tests_cant": "All strings.", "anchors": ["trikit/triangle.py:a2a_avgs", "trikit/estimators/base.py:_ldfs", "trikit/estimators/bootstrap.py:_bs_process_error"]}
{"id": "C68", "title": "Triangles with zero losses", "statement": "For a run-off triangle with zero or negative losses the averages exist exactly when, in every development period, the last link ratio before the first 0/0 is positive; otherwise a2a_avgs, and base_cl with any average, raise IndexError. When they exist, weighted averages and the default base_cl factors are ratios of column sums over all origins; the other averages use the positive link ratios before the first 0/0 only.", "quantifier": "all run-off triangles of three or more periods, any losses", "why_tests_cant": "Every placement of zero losses.", "anchors": ["trikit/triangle.py:a2a_avgs", "trikit/triangle.py:_medial", "trikit/estimators/base.py:_ldfs"]}
{"id": "C69", "title": "Reading options of totri", "statement": "tri_type is decided by its first letter (i or c, either case; anything else fails); data_format by its first letter after blanks: for tables c means cumulative and anything else incremental, for triangles i or c, anything else is a NameError; data_shape must be tabular or triangle, anything else is a NameError. Reading a cumulative triangle as incremental gives to_incr's differences, reading an incremental run-off triangle as cumulative gives to_cum's running totals; an index named other than origin is a KeyError.", "quantifier": "all option strings, all input frames; all triangles without gaps for the conversions", "why_tests_cant": "All strings and all triangles.", "anchors": ["trikit/triangle.py:totri"]}
{"id": "C70", "title": "Density curves of Mack reserves", "statement": "The table of density curves of a Mack result holds, for each origin with a standard error and for the total, exactly 100 points with equally spaced increasing abscissas from the .001 to the .999 quantile of the law fitted to that row's reserve and standard error, with the density of that law as ordinate; rows without standard error have none. plot() and diagnostics() draw these curves.", "quantifier": "all Mack results, all rows, both distributions", "why_tests_cant": "Continuous laws over all parameters; every result.", "anchors": ["trikit/estimators/mack.py:MackChainLadderResult._mack_data_transform", "trikit/estimators/mack.py:MackChainLadderResult.plot", "trikit/estimators/mack.py:MackChainLadderResult.diagnostics"]}
{"id": "C71", "title": "Lines of a triangle plot", "statement": "CumTriangle.plot draws, in origin order, one line per origin through exactly its observed (dev, value) cells in development order, labelled with the origin, with the observed development periods as ticks, in the combined view and (for display starting with f) in the faceted view.", "quantifier": "all triangles, all display strings", "why_tests_cant": "All shapes of triangle.", "anchors": ["trikit/triangle.py:CumTriangle.plot", "trikit/triangle.py:CumTriangle._combined_view", "trikit/triangle.py:CumTriangle._faceted_view"]}
{"id": "C72", "title": "Panels of a chain ladder plot", "statement": "plot() of a chain ladder result makes one panel for each origin in increasing order and one for the total; the x ticks are the plotted development periods, the y axis has five equidistant ticks from 0 to a bound above the largest loss of the panel, and the actual and forecast losses of the origin are drawn in it; it fails only when no tick is defined for the largest loss.", "quantifier": "all triangles, estimates and plotted tables", "why_tests_cant": "All magnitudes of losses and all shapes.", "anchors": ["trikit/estimators/base.py:BaseChainLadderResult.plot", "trikit/estimators/base.py:BaseChainLadderResult._get_yticks"]}
{"id": "C73", "title": "Histograms of simulated reserves", "statement": "hist() of a bootstrap result shows, for each origin in increasing order and for the total, the simulated reserves with a line at their median floored at 0 (the figure get_quantiles(.5, lb=0) reports) and an axis from 0 to 1.025 times their maximum floored at 0; it does not change the result.", "quantifier": "all simulated reserves, any number of simulations and origins", "why_tests_cant": "All samples, of even and odd size, with ties and negative reserves.", "anchors": ["trikit/estimators/bootstrap.py:BootstrapChainLadderResult.hist", "trikit/estimators/bootstrap.py:BootstrapChainLadderResult.get_quantiles"]}
{"id": "C74", "title": "What every simulated reserve is", "statement": "In a bootstrap result each simulation resamples the fitted increments (fitted value plus drawn residual times its root), develops the resampled triangle with its own volume-weighted factors, replaces every forecast increment x by a gamma variate of shape |x|/scale and scale the scale parameter with the sign of x, and reports per origin the latest resampled loss, the sum of the variates as reserve and latest plus reserve as ultimate; with the variates at their means the ultimates are the chain ladder ultimates of the resampled triangle.", "quantifier": "all run-off triangles, numbers of simulations, residual draws and gamma draws", "why_tests_cant": "All triangles, all sequences of random numbers and any number of simulations.", "anchors": ["trikit/estimators/bootstrap.py:BootstrapChainLadder._bs_samples", "trikit/estimators/bootstrap.py:BootstrapChainLadder._bs_ldfs", "trikit/estimators/bootstrap.py:BootstrapChainLadder._bs_forecasts", "trikit/estimators/bootstrap.py:BootstrapChainLadder._bs_process_error", "trikit/estimators/bootstrap.py:BootstrapChainLadder._bs_reserves"]}
{"id": "C75", "title": "Table of simulated records", "statement": "sims_data of a bootstrap result holds exactly one record per simulation, origin and development period, in that order, marked as forecast where the fitted triangle has no value; reserve_dist is its last-period records with missing latest values replaced by the ultimate and missing reserves by 0; on run-off triangles (factors of at least 1, first period labelled 1) samp_incr and samp_cum are the resampled triangle developed by its own factors, param1 is |samp_incr| over the scale parameter, ultimate is the resampled losses up to the latest diagonal plus the signed variates drawn after it, latest is the latest resampled loss and reserve their difference.", "quantifier": "all triangles with increasing labels (structure), all run-off triangles (values), numbers of simulations and draws", "why_tests_cant": "All triangles, any number of simulations, all sequences of random numbers.", "anchors": ["trikit/estimators/bootstrap.py:BootstrapChainLadder.__call__", "trikit/estimators/bootstrap.py:BootstrapChainLadder._bs_forecasts", "trikit/estimators/bootstrap.py:BootstrapChainLadder._bs_process_error", "trikit/estimators/bootstrap.py:BootstrapChainLadder._bs_reserves"]}
{"id": "C76", "title": "Bootstrap range plot", "statement": "plot(q) of a bootstrap result draws, for every origin, its observed losses; its forecasts from the latest value to the ultimate one step after the last period; and two lines that start at the latest value and hold, at every later period, the (1-q)/2 and (1+q)/2 quantiles of the simulated losses of that origin and period. The call never raises on a result that exists.", "quantifier": "all run-off triangles, simulated tables, numbers of simulations and shares q in [0, 1]", "why_tests_cant": "All triangles, draws and shares.", "anchors": ["trikit/estimators/bootstrap.py:BootstrapChainLadderResult.plot", "trikit/estimators/bootstrap.py:BootstrapChainLadderResult._bs_data_transform", "trikit/estimators/bootstrap.py:BootstrapChainLadderResult._get_quantiles_by_devp", "trikit/estimators/base.py:BaseRangeEstimatorResult._qtls_formatter"]}
{"id": "C77", "title": "Triangles the estimators accept", "statement": "base_cl with n-1 factors or a named average returns a result exactly for triangles with as many origins as development periods (or a single period) and raises ValueError for all others, so trapezoidal triangles are refused; so does mack_cl. With two periods mack_cl and base_cl with a named average raise IndexError, with three mack_cl still does. boot_cl accepts triangles of every shape with three or more periods (a non-parametric call needs a residual to draw) and raises IndexError with fewer.", "quantifier": "triangles of every shape and with any losses in which every origin and period is observed, all selections, tails and alphas", "why_tests_cant": "Every shape and size of triangle.", "anchors": ["trikit/estimators/base.py:__call__", "trikit/estimators/base.py:_ldfs", "trikit/estimators/base.py:_ultimates", "trikit/estimators/mack.py:__call__", "trikit/estimators/mack.py:_devp_variance"]}
{"id": "C78", "title": "Indicators assigned outside the table", "statement": "Assigning an indicator (tri.a2aind = (o, d, v)) to a cell that has no link ratio changes no average and no base_cl result: those remain determined by the indicators last assigned to the cells of the table.", "quantifier": "all triangles with increasing labels, all series of assignments to any labels, all averages", "why_tests_cant": "Every series of assignments.", "anchors": ["trikit/triangle.py:a2aind", "trikit/triangle.py:a2a_avgs", "trikit/estimators/base.py:_ldfs"]}
{"id": "C79", "title": "Floating-point accuracy of the chain ladder", "statement": "Computed in floating-point arithmetic with unit round-off u, whatever the order in which sums are added up, the default base_cl ultimate of the i-th origin of a triangle of positive losses differs from the exact one by at most about (i*i + i + 1) u of it, the total ultimate of n origins by about n*n u, and reserves by the same share of ultimate plus latest loss.", "quantifier": "all run-off triangles, rounding functions with relative error u, summation orders and tail factors", "why_tests_cant": "Every rounding pattern; tests compare with tolerances on single data sets.", "anchors": ["trikit/estimators/base.py:__call__", "trikit/estimators/base.py:_cldfs", "trikit/estimators/base.py:_ultimates", "trikit/estimators/base.py:_reserves", "trikit/triangle.py:a2a_avgs"]}
{"id": "C80", "title": "Mack summary table", "statement": "The summary of mack_cl has a row per origin in order and a total row; std_error is the square root of the mean squared error, cv is std_error over reserve (NaN for the oldest origin, whose error is 0); the total standard error lies between that of independent origins and the sum of the standard errors, so the total cv is at most the largest cv of an origin when all reserves are positive.", "quantifier": "all run-off triangles with positive losses, indicators and alphas", "why_tests_cant": "A pair of inequalities between square roots over all triangles.", "anchors": ["trikit/estimators/mack.py:MackChainLadder.__call__", "trikit/estimators/mack.py:_mean_squared_error"]}
{"id": "C81", "title": "Printed figures", "statement": "A printed triangle or chain ladder result shows every money figure as the nearest whole number with a comma before every third digit and every factor with five decimals, never another value; triangles of whole amounts that print the same are the same. In a printed result the reserve equals ultimate minus latest, and the total row the sum of the rows above it, up to rounding.", "quantifier": "all triangles and all base_cl results", "why_tests_cant": "Every figure of every size and sign.", "anchors": ["trikit/triangle.py:__str__", "trikit/triangle.py:__repr__", "trikit/estimators/base.py:__str__", "trikit/estimators/base.py:_summspecs"]}
{"id": "C82", "title": "Incremental triangles from cumulative tables", "statement": "totri(tri_type='incr', data_format='cum') on a table of cumulative losses puts into each recorded cell the increase over the row above it with the same origin (the value itself where there is none or it is missing), first development increases <= 0 counting as 1, and leaves the other cells missing; cumulating that triangle again gives back every recorded value, raised by the amount by which the origin's first value was raised.", "quantifier": "all tables without infinite values, in any row order, with missing and repeated records (the way back: finite tables listed in development order)", "why_tests_cant": "Every table of every size and row order.", "anchors": ["trikit/triangle.py:totri", "trikit/triangle.py:IncrTriangle.to_cum"]}
{"id": "C83", "title": "Losses that emerge as estimated", "statement": "If over the next year every origin develops exactly by the factor of its latest period (the oldest by the tail factor) and a new origin is added, then the averages over all years keep every factor, base_cl (tail factor 1) and mack_cl keep the ultimate of every earlier origin, and every reserve falls by exactly the losses that emerged. Mack's estimated variances shrink by the ratio of the degrees of freedom.", "quantifier": "all run-off triangles with positive losses and their successors, all averages over all years, all exclusions, alphas and weights", "why_tests_cant": "Relates the estimates on every triangle to those on an infinite family of next year's triangles.", "anchors": ["trikit/triangle.py:a2a_avgs", "trikit/estimators/base.py:BaseChainLadder.__call__", "trikit/estimators/mack.py:MackChainLadder.__call__"]}
{"id": "C84", "title": "What an origin's estimate depends on", "statement": "Two triangles that agree at and after a development period (losses and exclusions) have the same factors from that period on and the same estimates for every origin that has reached it, in base_cl with any labelled average and in mack_cl, and the same variances and errors.", "quantifier": "all pairs of run-off triangles with positive losses that agree from some period on, all averages, exclusions, alphas and weights", "why_tests_cant": "Non-interference: quantifies over all the losses that must not matter.", "anchors": ["trikit/triangle.py:a2a_avgs", "trikit/estimators/base.py:BaseChainLadder.__call__", "trikit/estimators/mack.py:MackChainLadder.__call__"]}
{"id": "C85", "title": "Single origins restated", "statement": "Multiplying the losses of single origins by positive constants of their own changes no link ratio: averages that do not weight by volume keep all factors, base_cl with them and mack_cl with alpha = 0 restate each origin's losses by its own constant and nothing else, the development variances stay, and the tests for correlation of development factors and calendar year effects do not change.", "quantifier": "all run-off triangles with positive losses, all positive constants by origin, all averages that do not weight by volume", "why_tests_cant": "Relates the results on every triangle to an infinite family of restatements.", "anchors": ["trikit/triangle.py:a2a_avgs", "trikit/estimators/base.py:BaseChainLadder.__call__", "trikit/estimators/mack.py:MackChainLadder.__call__", "trikit/estimators/mack.py:MackChainLadderResult.devp_corr_test", "trikit/estimators/mack.py:MackChainLadderResult.cy_effects_test"]}
{"id": "C86", "title": "Mack's variances use the included link ratios", "statement": "When link ratios are excluded through a2aind, mack_cl's variance parameter of a development period is the estimate from the included link ratios: their weighted squared deviations from the factor divided by their number less one.", "quantifier": "all run-off triangles with positive losses, all choices of excluded ratios, all alphas, every period but the last", "why_tests_cant": "Every subset of every triangle's link ratios.", "anchors": ["trikit/estimators/mack.py:_devp_variance", "trikit/triangle.py:a2aind"]}
{"id": "C87", "title": "Printed range summaries", "statement": "Printing the result of mack_cl or boot_cl shows the summary row by row and column by column: money figures, standard errors and quantiles as the nearest whole numbers with thousands separators, factors with five decimals, cv with three; the total row is last, Mack's oldest origin shows 0, NaN and NaN for standard error, cv and quantiles; boot_cl shows the maturities, cumulative factors and emergence of base_cl. Printing never changes the order of two figures of a column.", "quantifier": "all run-off triangles, all quantile lists, all simulations", "why_tests_cant": "Every figure and every quantile list.", "anchors": ["trikit/estimators/base.py:BaseRangeEstimatorResult", "trikit/estimators/mack.py:MackChainLadderResult", "trikit/estimators/bootstrap.py:BootstrapChainLadderResult"]}
{"id": "C88", "title": "Two books together", "statement": "If two triangles and the triangle of their sums are estimated with the same volume-weighted average (base_cl's default; mack_cl with alpha = 1), every factor of the whole lies between the factors of the two; latest losses add up; books with equal factors share them with the whole, and their ultimates and reserves add up, by origin and in total; if one book develops at least as much as the other in every period, each ultimate of the whole lies between the joint latest loss developed like one and like the other.", "quantifier": "all pairs of run-off triangles with positive losses, all volume-weighted labels, all tail factors, all choices of link ratios", "why_tests_cant": "Every pair of triangles.", "anchors": ["trikit/estimators/base.py:BaseChainLadder.__call__", "trikit/triangle.py:_BaseCumTriangle.a2a_avgs", "trikit/estimators/mack.py:MackChainLadder._ldfs"]}
{"id": "C89", "title": "Development periods restated", "statement": "Multiplying the losses of every development period by a positive factor of the period multiplies each development factor by the ratio of the two periods' factors, leaves the tail factor, and multiplies every ultimate by the factor of the last period, for every average of base_cl and for mack_cl.", "quantifier": "all run-off triangles with positive losses, all factors per period, all labels, all alphas and choices of link ratios", "why_tests_cant": "Every triangle and every restatement.", "anchors": ["trikit/estimators/base.py:BaseChainLadder.__call__", "trikit/triangle.py:_BaseCumTriangle.a2a_avgs", "trikit/estimators/mack.py:MackChainLadder._ldfs"]}
{"id": "C90", "title": "Indicators of empty cells", "statement": "The indicator of a cell of the link ratio table that holds no link ratio has no effect: two indicator tables that agree wherever there is a link ratio (for instance all ones, and the initial table) give the same averages, the same base_cl and the same mack_cl.", "quantifier": "all triangles, all pairs of indicator tables, all selections (base_cl); all run-off triangles with positive losses and all alphas (mack_cl)", "why_tests_cant": "Every table of indicators.", "anchors": ["trikit/triangle.py:_BaseCumTriangle.a2aind", "trikit/triangle.py:_BaseCumTriangle.a2a_avgs", "trikit/estimators/mack.py:MackChainLadder.mod_a2aind", "trikit/estimators/mack.py:MackChainLadder._ldfs"]}
{"id": "C91", "title": "Floating-point accuracy of the other factor rules", "statement": "What C79 says about the default selection also holds for weighted and simple averages over any window (with link ratios switched off), for factors given by the user and for the point estimates of mack_cl with any alpha: computed in floating-point arithmetic with unit round-off u, whatever the order of additions, every ultimate is within a stated number of roundings of the exact one, every reserve within one more relative to ultimate and latest loss, and totals within n more. For medial averages there is no such bound: rounding can move them by more than 1/2 however small u is.", "quantifier": "all run-off triangles with positive losses, all roundings with relative error at most u < 1, all orders of additions, all windows, weights and alphas", "why_tests_cant": "Rounding errors depend on every digit of the data and on the order of the additions, which pandas does not fix.", "anchors": ["trikit/triangle.py:_BaseCumTriangle.a2a_avgs", "trikit/estimators/base.py:BaseChainLadder._ldfs", "trikit/estimators/base.py:BaseChainLadder._ultimates", "trikit/estimators/mack.py:MackChainLadder._ldfs"]}
{"id": "C92", "title": "Bootstrap and the currency unit", "statement": "boot_cl applied to the same losses expressed in another currency unit, with the same seed, gives the same result in that unit: development factors, degrees of freedom and coefficients of variation are unchanged; fitted values, the scale parameter, every simulated latest loss, ultimate and reserve, the summary with its standard errors, and every quantile reported by the call or by get_quantiles (with the lower bound in that unit) are multiplied by the ratio of the units, residuals by its square root.", "quantifier": "all run-off triangles with positive losses, all ratios of units, all indicators that keep the latest link ratios, all numbers of simulations, all draws", "why_tests_cant": "A simulation is checked by tests for one seed and one unit; that no hidden constant, threshold or mixed power of the unit enters the simulation has to hold for every triangle, unit and draw.", "anchors": ["trikit/estimators/bootstrap.py:BootstrapChainLadder.__call__", "trikit/estimators/bootstrap.py:BootstrapChainLadder._bs_samples", "trikit/estimators/bootstrap.py:BootstrapChainLadder._bs_process_error", "trikit/estimators/bootstrap.py:BootstrapChainLadderResult.get_quantiles"]}
{"id": "C93", "title": "Triangles the bootstrap refuses", "statement": "On a run-off triangle with positive losses boot_cl raises exactly when simulations with resampled residuals are requested and all origins develop in the same proportions (each period's link ratio is the same for every origin), because there is then no non-zero residual to draw; the exception is ValueError. With parametric=True, with no simulations, or as soon as one origin develops differently, it returns a result.", "quantifier": "all run-off triangles with positive losses and at least three origins, all numbers of simulations, both sampling modes, all indicators that keep the latest link ratios", "why_tests_cant": "Whether a degenerate triangle is refused, and whether any other is, depends on cancellations between fitted and actual increments in every cell; tests use a few data sets.", "anchors": ["trikit/estimators/bootstrap.py:BootstrapChainLadder.__call__", "trikit/estimators/bootstrap.py:BootstrapChainLadder._sampling_dist", "trikit/estimators/bootstrap.py:BootstrapChainLadder._bs_samples", "trikit/estimators/bootstrap.py:BootstrapChainLadder._resid_us"]}
{"id": "C94", "title": "Bootstrap and the labels", "statement": "Which numbers the origins and development periods carry does not influence the bootstrap: two triangles with the same losses under different labels give, with the same seed, the same factors, fitted values, residuals, simulated figures for the origin at the same place, summary with standard errors and quantiles.", "quantifier": "all run-off triangles with positive losses, all pairs of increasing label lists, all draws", "why_tests_cant": "Labels are compared, sorted, joined on and looked up in every step of the simulation; a test uses one set of labels.", "anchors": ["trikit/estimators/bootstrap.py:BootstrapChainLadder.__call__", "trikit/estimators/bootstrap.py:BootstrapChainLadder._bs_forecasts", "trikit/estimators/bootstrap.py:BootstrapChainLadder._bs_ldfs", "trikit/estimators/bootstrap.py:BootstrapChainLadder._bs_reserves"]}
{"id": "C95", "title": "The youngest origin and the bootstrap", "statement": "Changing the only observation of the youngest origin changes no factor, residual, scale parameter or degree of freedom of the bootstrap, and, with the same draws, no simulated record and no summary row of another origin.", "quantifier": "all run-off triangles with positive losses, all replacement values, all numbers of simulations, all draws whose gamma variates depend on their position and own parameters", "why_tests_cant": "The youngest origin's records stand among those of all others in every table of the simulation; a test changes one value of one triangle.", "anchors": ["trikit/estimators/bootstrap.py:BootstrapChainLadder.__call__", "trikit/estimators/bootstrap.py:BootstrapChainLadder._bs_samples", "trikit/estimators/bootstrap.py:BootstrapChainLadder._bs_ldfs", "trikit/estimators/bootstrap.py:BootstrapChainLadder._bs_forecasts", "trikit/estimators/bootstrap.py:BootstrapChainLadder._bs_process_error", "trikit/estimators/bootstrap.py:BootstrapChainLadder._bs_reserves"]}
{"id": "C96", "title": "Higher latest losses never lower an estimate", "statement": "If some losses of the latest diagonal are raised and nothing else changes, no development factor, no ultimate and not the total ultimate falls; if every factor is at least 1, no reserve falls either. For base_cl with every average label and for mack_cl with every alpha and choice of included link ratios.", "quantifier": "all run-off triangles with positive losses, all sets of raised latest losses and amounts, all average labels, alphas and inclusions that keep the latest link ratio of each period (mack_cl: any weights)", "why_tests_cant": "Which average responds in the wrong direction depends on the ordering and ties of the link ratios of the whole triangle; a test raises one loss of one triangle.", "anchors": ["trikit/triangle.py:_BaseCumTriangle.averages", "trikit/triangle.py:_BaseCumTriangle.a2a_avgs", "trikit/estimators/base.py:BaseChainLadder.__call__", "trikit/estimators/mack.py:MackChainLadder.__call__", "trikit/estimators/mack.py:MackChainLadder._ldfs"]}
{"id": "C97", "title": "Bootstrap when cumulative losses fall", "statement": "In every simulation of boot_cl the latest loss of an origin is its resampled paid loss, whatever the development factors, including factors below 1; no origin with positive losses is reported with ultimate 0.", "quantifier": "all run-off triangles with positive losses, all factors, all numbers of simulations, all residual draws and gamma variates", "why_tests_cant": "Whether an origin is lost depends on which column's factor falls below 1 and on how NaN propagates through sampling, forecasting and the final replacement by 0; the bundled triangles have no such factor in most tests, and a mean over simulations hides it.", "anchors": ["trikit/estimators/bootstrap.py:BootstrapChainLadder._bs_samples", "trikit/estimators/bootstrap.py:BootstrapChainLadder._bs_forecasts", "trikit/estimators/bootstrap.py:BootstrapChainLadder._bs_process_error", "trikit/estimators/bootstrap.py:BootstrapChainLadder._bs_reserves", "trikit/estimators/bootstrap.py:BootstrapChainLadder.__call__"]}
{"id": "C98", "title": "Every simulated record in closed form", "statement": "For every run-off triangle with positive losses the records of a bootstrap result are one fixed function of the fitted increments, the residuals drawn, the gamma variates and the labels: losses are resampled in the first period and in every period reached with a factor of at least 1; a factor leads from one such period to the next such period, and out of the last one it divides the first-period total by a total of the simulation before; an origin is developed from its latest resampled loss with the factors that exist; increments after the latest period are replaced by variates; ultimate, latest and reserve follow. An origin whose latest period is reached with a factor below 1 has reserve 0 in every simulation. The summary shows the mean of the simulated ultimates (the oldest origin: its latest loss) less the latest loss observed.", "quantifier": "all run-off triangles with positive losses, all development factors, all labels, all numbers of simulations, all residual draws and gamma variates", "why_tests_cant": "Which cells are missing depends on the pattern of factors below 1, of which there are 2^(n-1) for n origins, and what happens to them depends on how NaN passes through six table operations and on the position of a simulation among the others; a test covers one pattern and one seed.", "anchors": ["trikit/estimators/bootstrap.py:BootstrapChainLadder._bs_samples", "trikit/estimators/bootstrap.py:BootstrapChainLadder._bs_ldfs", "trikit/estimators/bootstrap.py:BootstrapChainLadder._bs_forecasts", "trikit/estimators/bootstrap.py:BootstrapChainLadder._bs_process_error", "trikit/estimators/bootstrap.py:BootstrapChainLadder._bs_reserves", "trikit/estimators/bootstrap.py:BootstrapChainLadder.__call__"]}
{"id": "C99", "title": "Process error is unbiased, with variance scale times mean", "statement": "Averaged over the gamma variates, with the residuals drawn held fixed, every simulated ultimate and reserve of a bootstrap result is the one obtained when every variate equals its mean, and its variance is the scale parameter times the total of the absolute forecast increments of the origin in that simulation. The ultimates of the summary and their total average to those of that run, too.", "quantifier": "all run-off triangles with positive losses, all factors, labels, numbers of simulations and residuals, all probability-weighted families of gamma variates with the mean and variance of the gamma law and uncorrelated within an origin", "why_tests_cant": "A moment is an average over all outcomes of a random generator; a test sees one seed, and the sign, shape and scale of each variate can be wrong without any single run showing it.", "anchors": ["trikit/estimators/bootstrap.py:BootstrapChainLadder._bs_process_error", "trikit/estimators/bootstrap.py:BootstrapChainLadder._bs_forecasts", "trikit/estimators/bootstrap.py:BootstrapChainLadder._bs_reserves", "trikit/estimators/bootstrap.py:BootstrapChainLadder.__call__"]}
{"id": "C100", "title": "Resampling and process error use separate random numbers", "statement": "The random numbers that pick the residuals of a bootstrap are not used again for the gamma variates of its process error: changing only numbers used up by the resampling leaves the gamma variates as they are. An integer random_state breaks this: both stages restart the generator from that seed, so the gamma variates are the ones of a run that drew no residuals.", "quantifier": "all random_state arguments, generators, numbers of draws, and ways of turning raw numbers into draws", "why_tests_cant": "Reuse of the same random numbers leaves every single run looking plausible; it shows only in how two runs with different numbers are related.", "anchors": ["trikit/estimators/bootstrap.py:BootstrapChainLadder._bs_samples", "trikit/estimators/bootstrap.py:BootstrapChainLadder._bs_process_error", "trikit/estimators/bootstrap.py:BootstrapChainLadder.__call__"]}
{"id": "C101", "title": "Resampling leaves the latest losses right on average", "statement": "Over all draws of the residuals, the simulated latest loss of an origin is on average the observed one, and its variance is the variance of a residual times the observed latest loss. The mean is off by the mean residual times the total of the roots of the fitted increments, hence right exactly if the residuals add up to 0; parametric draws have mean 0. The squares of the residuals add up to the square of the adjustment factor times the degrees of freedom times the scale parameter.", "quantifier": "all regular triangles of positive losses, origins, simulations, probabilities and draws with the mean and mean square of the resampled list, pairwise uncorrelated within an origin", "why_tests_cant": "A mean over all draws is not visible in any single run, and a sample mean cannot tell a small bias from noise.", "anchors": ["trikit/estimators/bootstrap.py:BootstrapChainLadder._bs_samples", "trikit/estimators/bootstrap.py:BootstrapChainLadder._sampling_dist", "trikit/estimators/bootstrap.py:BootstrapChainLadder._resid_adj", "trikit/estimators/bootstrap.py:BootstrapChainLadder._scale_param"]}
{"id": "C102", "title": "The number of a simulation does not matter", "statement": "Two simulations with the same residuals and gamma variates, in one run or in two runs on the same triangle with any numbers of simulations, have the same latest losses, ultimates and reserves; and putting the simulations of a run in another order leaves the summary, its totals, standard errors and coefficients of variation, and all quantiles as they are.", "quantifier": "all run-off triangles with positive losses, all numbers of simulations, all draws, all pairs of simulations and all reorderings", "why_tests_cant": "Concerns pairs of runs whose draws are related in a way that seeded test runs do not produce, and every position in the flat table of simulations.", "anchors": ["trikit/estimators/bootstrap.py:BootstrapChainLadder._bs_samples", "trikit/estimators/bootstrap.py:BootstrapChainLadder._bs_ldfs", "trikit/estimators/bootstrap.py:BootstrapChainLadder._bs_forecasts", "trikit/estimators/bootstrap.py:BootstrapChainLadder._bs_process_error", "trikit/estimators/bootstrap.py:BootstrapChainLadder._bs_reserves"]}
