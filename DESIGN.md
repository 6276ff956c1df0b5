# Formal model of trikit in Rocq (Coq 8.16.1)

## 1. What is modelled, and how

The code under `/repo/trikit` is pandas code. Every function in scope becomes a
total, computable Gallina function over small data structures. Python
exceptions are values (`res A := Ok a | Err exn`). Nothing in the model is an
axiom.

### Numbers

* `val := NaN | PInf | NInf | Fin (q : Qc)` (file `Val.v`) models a float64
  cell. `Qc` is the standard library's canonical rationals, so equality is
  Leibniz equality and everything computes. Addition, multiplication, division
  and comparisons follow the IEEE-754 tables for NaN and infinities.
  *Simplified:* no rounding, no overflow/underflow, no signed zero (so `x/0`
  for `x > 0` is `+inf`).
* `sqrt`, `ln`, `exp` occur in few places. Where the property depends on
  them (Mack standard errors, lognormal moment matching, residual scaling,
  geometric means) they are modelled over the standard library's reals `R`,
  which brings in the standard library's axioms of `R` (listed by
  `Print Assumptions`). In executable parts of the model they are explicit
  function parameters ("oracles"), and the theorems quantify over them.
* Labels (origin, dev, sim) are `Z`.

### Frames and triangles

* A user frame is an association list from column names to columns
  (`Frame.v`), with the pandas operations trikit uses (select, assign, rename,
  drop, groupby-sum, groupby-cumsum, groupby-diff, pivot, melt, dropna, sort).
* A triangle is a record: index labels, column labels, cell matrix, and the
  three column names it was built with. A triangle *object* additionally has the
  lazily cached properties; the cache is modelled as a state machine.
* Random draws (bootstrap) are explicit lists given to the model.

### Exceptions

Where pandas raises, the model returns `Err` with the Python exception class.

## 2. Plan per property

| id | model | proof plan |
|---|---|---|
| C01 | ctor of `_BaseTriangle` as groupby-sum + pivot on record lists | induction on records; spec is a filtered sum |
| C02 | same | permutation invariance of sums, and of sorted distinct labels |
| C03 | `_BaseCumTriangle` ctor (cumsum in row order before aggregation) | proved for dev-sorted unique-key tables, refuted in general by a witness; the exact cells are characterised for every table (`C03_cells_of_every_table`) |
| C04 | same | refuted by a two-company witness; exact cells of stacked companies by induction over the companies (`SpecStack.v`, `StackClaims.v`) |
| C05 | fill loop of `totri` with its cached `triind` | proved for staircase gap patterns; refuted for non-monotone ones; exact description of the missing cells of every table (`cut_off`) by induction along a row |
| C06 | frame store with explicit aliasing (ref of input frame vs. copies) | store is unchanged at the input reference |
| C07 | `to_cum`, `to_incr` | row-wise induction |
| C08 | C01/C03 models | proved for positive first column; refuted with witness `(-5, 10)`; exact condition from the exact cells of both triangles (`ConvIff.v`) |
| C09 | groupby-diff then cumsum | induction over the row-order trace of each origin; every cell for tables with missing and repeated records (`SpecCumTab.v`, `CumTabClaims.v`) |
| C10 | melt/dropna/sort then ctor | via C14-like pivot inversion |
| C11 | `latest*` | last non-NaN cell spec |
| C12 | `clvi`, `rlvi`, `triind`, `maturity` | index arithmetic; run-off spec |
| C13 | `diagonal` | index arithmetic |
| C14 | `to_tbl`, then `totri` | melt/pivot inversion; exact result of rebuilding any triangle; for cumulative triangles filling twice is filling once (`RebuildClaims.v`) |
| C15 | names threaded through every operation | refuted by witness, proved for default names; exactly which names each operation works under (`PropsNames`) |
| C16 | string arguments | case analysis for all strings; exactly which numeric tables are accepted (`SpecAcceptTab.v`, `AcceptTab.v`) |
| C17 | `a2a` (shift, divide, drop all-NaN) | run-off spec |
| C18 | `a2aind` setter as state transition | induction over update histories |
| C19 | `a2a_avgs` | windows as sublists of columns, run-off spec |
| C20 | `_medial` | list reasoning |
| C21 | `a2a_avgs`, Mack `_ldfs` | proved for `all-simple` and Mack, refuted for weighted averages and for latest-diagonal exclusions |
| C22 | `_cldfs`, `_ldfs` | induction; at any period spacing by comparison with the relabelled table |
| C23 | base `__call__` | proved for run-off triangles, refuted for irregular square triangle; the ultimates of a triangle of any shape are characterised (`C23_ultimate_any_shape`) |
| C24 | `_trisqrd` | induction over columns |
| C25 | whole base pipeline | equivariance of each stage |
| C26 | `sel` handling with the Series reference | refuted for Series, proved for lists/labels |
| C27 | cache state machine | invariant: each cache is empty or holds the value of its defining function |
| C28-C33, C50 | Mack model over `Qc` with natural exponents alpha in {0,1,2} | algebra, induction over development |
| C34 | over `R` | exp/ln algebra |
| C35-C37 | quantile formatter/percentile over `Qc` | list reasoning |
| C38-C43 | bootstrap as flat (sim, origin, dev) tables | induction; C39, C41 refuted in part |
| C44, C45 | rank and calendar-year statistics | rearrangement-type inequality; binomial identities |
| C46, C47 | utils over record lists | filter reasoning |
| C48, C49 | formulas | witnesses and restricted proofs |
| C51 | composition: records, `totri`, cache state, `base_cl`, `mack_cl` | from C01-C09, C27 and the closed form of the estimators |
| C52-C58 | pairs of results on related triangles | closed form of `mack_cl` (`MackExplicit.v`), congruence of `a2a_avgs` (`RelFacts.v`), algebra |
| C59, C60 | `devp_corr_test`, `cy_effects_test` over the reals | interval probabilities of the normal law (`GaussTail.v`), mean and variance of Spearman's coefficient over all rankings by induction (`PermVar.v`) |
| C61 | `ppf` of the fitted laws, quantile columns | monotone laws, C34 and C36 |
| C62, C63 | bootstrap summary table over per-simulation reserves | Minkowski inequality for standard deviations; C63 refuted for reserves |
| C64 | `_data_transform` as a list of drawn records | closed form of `base_cl`, filters of the origin/period grid |
| C65, C66 | `origin_dist`, `residuals_detail` on a bootstrap result | grouping of records with distinct keys; moments scale with the residuals; refuted for the pinned scipy |
| C67 | `a2a_avgs` labels, `_ldfs`, `procdist` check | injectivity of labels; string lemmas |
| C68 | `a2a`, `a2a_avgs`, `_medial`, `base_cl` on triangles with zero or negative losses | first-NaN windows; empty window iff last defined ratio is not positive |
| C69 | option texts of `totri`; conversion while reading triangle-shaped data | case analysis on characters; C07 lemmas |
| C70 | `_mack_data_transform`: frozen laws' `pdf`, `linspace`, concatenation, `dropna`; the columns `plot` and `diagnostics` read | derivative of the distribution function (C34, C61 laws); selection by label; always an error for the two pictures |
| C71 | data of `_combined_view` and `_faceted_view` | the table of C14, grouped |
| C72 | `BaseChainLadderResult.plot`, up to the drawing library | from C64's records; extremum and tick lemmas |
| C73 | `hist`, up to the drawing library | sorting, counting below and above the middle |
| C74 | the whole simulation, from the fitted increments to the simulated reserves | closed form of each stage (resampling, factors, forecasts, process error), by induction over simulations and records |
| C75 | the table of simulated records kept in the result (`Sims.v`) | group-by-group induction; closed form as for C74 |
| C76 | the records drawn by a bootstrap result's `plot` (`BsPlot.v`), the two missing keywords as flags | refuted for the program as it is; with the keywords accepted, from the records of C64, the linear quantile of C37 and lookup by key |
| C77 | `base_cl` and `mack_cl` on triangles of every shape (`Base.v`, `Mack.v`) | the product of latest losses and cumulative factors exists exactly when their numbers agree (or broadcast); the number of factors of every selection and of Mack's is the number of periods; two and three periods by computation; `boot_cl` needs the average, the latest losses, the fit and the increments, all of which exist for every shape (`BootAccept.v`) |
| C78 | the indicator table as a labelled frame that pandas enlarges (`Enlarge.v`), `a2a_avgs` and `base_cl` reading it | induction over the assignments; rows of NaN after the last origin do not move the first NaN of a column, one between two origins ends every column there (`EnlargeMid.v`); a column or a first row of NaN leaves the medial average without data; `mack_cl` on such a table (`MackW.v`) sums over the labels it shares with the losses |
| C79 | `Round.v`: the default chain ladder with a rounding after every operation and sums in any order | relative errors as powers of 1 - u, carried through sums, quotients, products; differences as pairs; Bernoulli's inequality |
| C80 | `MackSum.v`: the summary table of `mack_cl` | closed formula of the result (`mack_explicit`); parameter error at least U² Σ u/f², pairwise covariances bounded by Cauchy-Schwarz, then the square of a sum of roots; refutation for alpha = 2 by a 4x4 triangle |
| C81 | `Print.v`: the texts of labels and cells of a printed triangle and chain ladder summary | a reader of printed numbers (`SpecPrint.v`) applied to the text gives the nearest multiple of the last place; separators by induction on groups of three; balance and totals from C23 and the half-unit bounds; refuted exactly by two 3x3 triangles |
| C82 | `totri` with incremental type and cumulative table | the row-order trace of each origin gives the increment of a row; cumulating again by the running sums of C08 (`SpecIncTab.v`, `IncTabClaims.v`) |
| C83 | `base_cl`, `mack_cl` on a triangle and on its successor | a ratio equal to the average leaves simple, geometric, medial and weighted averages unchanged; closed forms of C29, C51 (`SpecEmerge.v`, `EmergeClaims.v`, `EmergeClaims2.v`) |
| C84 | `base_cl`, `mack_cl` on triangles that agree from a period on | closed forms of both results read only those columns, except the extrapolated last variance, refuted by example (`EmergeClaims2.v`) |
| C85 | `base_cl`, `mack_cl` (alpha = 0), Spearman and calendar year tables on restated origins | equal link ratios give equal unweighted averages; closed forms (`EmergeClaims2.v`) |
| C86 | `_devp_variance` with excluded link ratios | closed form of C32 regrouped over the included origins; equality characterised, refuted by example (`SpecExcl.v`, `ExclClaims.v`) |
| C87 | `RangePrint.v`: the texts of the summaries of mack_cl and boot_cl, with standard errors, cv and quantile columns | as C81, with rounding of real numbers (`SpecRange.v`, `RangeClaims.v`) |
| C88 | base_cl and mack_cl on two triangles and on their sum | factors are mediants; estimates from the factors (`SpecBooks.v`, `BooksClaims.v`); refuted for the simple average |
| C89 | base_cl and mack_cl on a triangle with restated periods | every average is homogeneous; telescoping products (`SpecPeriod.v`, `PeriodClaims.v`) |
| C90 | `a2a_avgs`, base_cl and mack_cl (`MackW.v`) on two indicator tables | a missing ratio stays missing in every product; what mack_cl reads are products of indicator and power, on the labels of the table (`MackWClaims.v`); refuted for alpha = 0 |
| C91 | `Round2.v`: windows of weighted and simple averages, Mack's factors and given factors with a rounding after every operation | the calculus of C79 over lists of rows; a bound a + b t for the factor with t link ratios gives i (a + b i + 1) for the i-th product; medial averages refuted by a rounding that makes two ratios equal |
| C92 | nothing new | every step of the simulation commutes with multiplication by c = k^2 of losses and by k of residuals (`ScaleBoot.v`), hence the call (`ScaleBootClaims.v`), the table and the quantiles (`ScaleBootTab.v`) |
| C93 | nothing new | an adjusted residual is dropped exactly if the fitted increment is the actual one; all are exactly if the triangle is its own fit (`BootExact.v`) |
| C94 | nothing new | every step of the simulation commutes with a relabelling that keeps the order and the place of the label 1 (`RelabBoot.v`, `RelabBootClaims.v`) |
| C95 | nothing new | the closed form of the simulated records for any factors (`AnyClaims.v`): with a last factor of at least 1 those of the older origins do not mention the youngest (`YoungBoot.v`); with a last factor below 1 a counterexample |
| C96 | nothing new | each average as a function of its link ratios: sums, the medial one by its extremes (`RaiseClaims.v`); products of factors; the tied case refuted with a witness |
| C97 | nothing new | the records of any table of forecasts by position; the group of the origin whose latest resampled value is missing, followed to its record (`BelowOne.v`); the positive half from C74 |
| C98 | nothing new | every stage of the simulation in closed form for any set of missing columns: sampling, column totals, factor table, forecasts, process error (`AnyClaims.v`); the table of records and the summary from the same stages (`AnySims.v`) |
| C99 | nothing new; a finite probability space of runs (`SpecProc.v`) | every record of a run is the record at the means plus a sum of uncorrelated deviations, by the closed form of C98 (`ProcClaims.v`) |
| C100 | nothing new; a generator is an infinite sequence of raw numbers (`SpecStream.v`, `SpecDraw.v`) | the generator a stage starts from, for each kind of `random_state`, by `boot_rng` (`PropsStream.v`); refuted for an integer |
| C101 | nothing new; runs that differ in the residuals drawn, weighted with their probabilities (`SpecDraw.v`) | a simulated latest loss is the observed one plus the draws times the roots of the fitted increments; then linearity and the missing correlations (`DrawClaims.v`, `PropsDraw.v`); unbiasedness refuted in general, and for factors below 1 even with draws of mean 0 (`DrawFall.v`, `PropsDrawFall.v`) |
| C102 | nothing new | from the closed form of the records (C98): with the last factor at least 1 every figure depends on the own simulation only, and means do not depend on the order (`OrderClaims.v`, `PropsOrder.v`); nor do sample variances and percentiles (`OrderTab.v`, `PropsOrderTab.v`); refuted with the last factor below 1 |

Not expressible in the model: plotting output, pandas/numpy/scipy internals,
the statistical quality of the pseudo-random generator, floating-point rounding.

## 3. Layout of `rocq/theories`

| files | content |
|---|---|
| `Val.v`, `Frame.v` | float64 values, tables and the pandas operations trikit calls |
| `Triangle.v`, `A2A.v` | `triangle.py` |
| `Base.v`, `Mack.v`, `MackW.v`, `Boot.v`, `Diag.v`, `Resid.v`, `Quant.v`, `Dist.v`, `Infer.v`, `BootSum.v`, `BootDet.v`, `Args.v`, `Plot.v`, `Curve.v`, `Panels.v`, `Sims.v`, `BsPlot.v`, `Enlarge.v`, `Round.v`, `Round2.v`, `MackSum.v`, `Print.v`, `RangePrint.v` | `estimators/*.py` |
| `State.v` | the lazily cached properties and their histories |
| `Utils.v` | `utils.py` |
| `Spec.v`, `Spec2.v`, `SpecState.v`, `SpecQuant.v`, `SpecUtils.v`, `SpecDist.v`, `SpecEnd.v`, `SpecRel.v`, `SpecEmerge.v`, `SpecTail.v`, `SpecInfer.v`, `SpecBootSum.v`, `SpecPlot.v`, `SpecCum.v`, `SpecBootDet.v`, `SpecArgs.v`, `SpecZero.v`, `SpecTotri.v`, `SpecCurve.v`, `SpecPanels.v`, `SpecSim.v`, `SpecBand.v`, `SpecAccept.v`, `SpecCols.v`, `SpecRound.v`, `SpecSpace.v`, `SpecPrint.v`, `SpecCumTab.v`, `SpecStack.v`, `SpecIncTab.v`, `SpecAcceptTab.v`, `SpecExcl.v`, `SpecRange.v`, `SpecBooks.v`, `SpecPeriod.v`, `SpecRound2.v`, `SpecUnits.v`, `SpecRelab.v`, `SpecSimL.v`, `SpecRaise.v`, `SpecLeak.v`, `SpecAny.v`, `SpecProc.v`, `SpecStream.v` | the vocabulary of the property statements, independent of the model's helpers |
| `QcLib.v`, `ListLib.v`, `Binom.v`, `Gauss.v`, `GaussTail.v`, `PermVar.v` | pure mathematics used in proofs |
| `*Facts.v`, `*Claims*.v`, `Boot{Fit,Lib,Sim,Noise,Indep,Form}.v`, `SimsForm.v`, `StateBuilt.v`, `CumExact.v`, `ConvIff.v`, `AcceptTab.v`, `BaseShape.v` | proofs |
| `Validation.v` | the model evaluated on the repository's data sets against its unit tests' reference figures |
| `Ex*.v` | concrete triangles for the non-vacuity examples |
| `Props*.v` | one theorem per (part of a) property, its `Print Assumptions`, its `_nonvacuous` example |

Naming: `Cnn_…` is a property theorem, `_partial` proves part of the property,
`_refuted` proves that the full statement is false of the model, with a
witness computed in the kernel, and `Cnn_nonvacuous` is a concrete case that
meets the hypotheses.

## 4. Trusted base

* **Coq's kernel** (8.16.1, with `vm_compute`), checked again with `coqchk`.
* **Axioms.** `Print Assumptions` answers "Closed under the global context" for
  every property theorem named in `MANIFEST.json` (339 theorems), except those over the
  reals (32), for which it lists some of the standard library's axioms
  `ClassicalDedekindReals.sig_forall_dec`, `ClassicalDedekindReals.sig_not_dec`,
  `FunctionalExtensionality.functional_extensionality_dep` and `Classical_Prop.classic`:

  | axioms listed | theorems |
  |---|---|
  | `sig_forall_dec`, `functional_extensionality_dep` | `C87_printed_figures` |
  | `sig_forall_dec`, `sig_not_dec`, `functional_extensionality_dep` | `C34_std_error_column`, `C62_one_simulation`, `C62_std_errors`, `C66_raises_refuted`, `C66_residuals_detail_partial`, `C80_mack_summary_table`, `C80_total_at_most_sum_refuted`, `C80_total_cv_bound`, `C87_boot_text`, `C92_boot_units`, `C94_boot_labels_partial`, `C102_tables_partial` |
  | `sig_forall_dec`, `sig_not_dec`, `functional_extensionality_dep`, `classic` | `C34_lognormal_moments`, `C34_lognormal_other_rows`, `C34_lognormal_partial`, `C34_lognormal_refuted`, `C34_normal_is_moment_matched`, `C34_oldest_origin_refuted`, `C34_unknown_distribution`, `C59_correlation_interval`, `C59_start_irrelevant`, `C60_calendar_year_interval`, `C61_lognormal_quantiles`, `C61_lognormal_without_positive_reserve`, `C61_no_error`, `C61_normal_quantiles`, `C70_diagnostics_drawn_refuted`, `C70_lognormal_curve`, `C70_no_error_no_curve`, `C70_normal_curve`, `C87_mack_text` |

  The development loads, but the theorems do not use, the other axioms and
  opaque module fields that come with the libraries the real-analysis files
  import: `Coq.ssr.ssrunder.Under_rel.*` and
  `Coq.Reals.Rdefinitions.RbaseSymbolsImpl.*` / `RinvImpl.*` (sealed
  definitions of the standard library, reported by `coqchk`). Coquelicot is
  used as a library of theorems in `Gauss*.v`, `SpecDist.v`, `SpecTail.v`, `Dist*.v`, `Infer*.v`, `QtlClaims.v`; it adds no axiom.
* **The reading of pandas/numpy/scipy.** `Frame.v` states what `groupby.sum`,
  `cumsum`, `diff`, `pivot`, `melt`, `dropna`, `sort_values`, `rename`, `drop`
  and column assignment do; `Quant.v` states numpy's percentile methods;
  `Diag.v` states `DataFrame.rank`, `np.median`, `np.isclose`. They were
  written from the documentation of the pinned versions and are not verified
  against the libraries.
* **Oracles.** Explicit arguments of the model, over which the theorems
  quantify: `gm` (geometric mean, `triangle.py` 480-499; where a law is needed it is
  `mean_like`: between the smallest and the largest value), `rt`/`sq` (square
  root, where a law is needed it is the hypothesis `root_like`, in C92 `root_units`), the random
  draws of the bootstrap (resampling, gamma; in C92 with the law `draws_units`), scipy's `norm.cdf` and `norm.ppf`
  (hypotheses `std_cdf`, `std_ppf`: exact), `optimize.root` (hypothesis: it found a
  zero), `ppf` of a frozen scipy distribution, scipy's `stats.mode` (`mode0`). In `Dist.v` scipy's `norm(loc, scale)` and `lognorm(s, 0,
  scale)` are the laws of `loc + scale Z` and `scale exp(s Z)` with Z standard
  normal.
* **Numbers.** Exact rationals instead of float64: no rounding, overflow or
  signed zero. A statement such as "equal" is about exact arithmetic. C79 and C91 bound what
  rounding does to the point estimates of `base_cl` and `mack_cl`; for geometric averages,
  standard errors and the bootstrap there is no such bound.
* **Correspondence model/code.** By reading; each definition cites the lines
  it models. `Validation.v` evaluates the model on the repository's own data
  sets against the reference figures of the repository's unit tests (the base
  chain ladder, custom factors, the Spearman and calendar year statistics, the
  latest diagonal, link ratios; the Mack and bootstrap-fit figures were compared
  the same way once, but take too long under `coqchk` to be part of the build).

## 5. What is modelled and what is not

| code | status |
|---|---|
| `triangle.py` `_BaseTriangle` (41-356) | modelled: constructor, validation, negative handler, `nbr_cells`, `triind`, `rlvi`, `clvi`, `latest*`, `devp`, `origins`, `maturity`, `diagonal`, `to_tbl` |
| `__str__`, `__repr__` (359-366; base.py 327-331, 585-590) | texts of headers, labels and cells (`Print.v`, `RangePrint.v`; C81, C87); padding and line breaks not modelled |
| `_BaseIncrTriangle`, `IncrTriangle`, `to_cum`, `_BaseCumTriangle` (370-476) | modelled |
| averages, `a2a`, `a2aind` and setter, `a2a_lvi`, `ranked_a2a`, `a2a_assignment`, `a2a_avgs` (480-856) | modelled; setter for existing labels in `A2A.v` and `State.v`, for any labels in `Enlarge.v` (averages and base_cl) and `MackW.v` (mack_cl) |
| `to_incr`, `base_cl`, `boot_cl`, `mack_cl` (869-1275) | modelled |
| `plot`, `_combined_view`, `_faceted_view` (897-1098) | the lines and ticks handed to matplotlib (`plot_lines`); rendering not modelled |
| `glm` (1278), `estimators/glm.py` | not modelled: empty stub upstream |
| `totri` (1289-1407) | modelled, with aliasing of frames |
| `estimators/base.py` `__call__` … `_trisqrd` (53-281), `_get_yticks`, `_qtls_formatter` | modelled |
| `_data_transform` (362-447) | modelled |
| `plot` (450-582) | panels, labels and ticks modelled (`Panels.v`, C72); colours, fonts and legends not. `kwargs` is accepted and unused |
| `estimators/mack.py` 59-464, residuals, Spearman, calendar year tables, `devp_corr_test`, `cy_effects_test`, `get_quantiles` | modelled |
| `_mack_data_transform` (818-834), `plot`, `diagnostics` (866-1086) | density curves (`mack_data_transform`); the two pictures only up to the columns they read; rendering not modelled |
| `estimators/bootstrap.py` 104-736 (incl. standard errors, summary), `origin_dist`, `residuals_detail`, `get_quantiles` | modelled, `parametric` both ways, with the table kept as `sims_data` (`Sims.v`, without helper columns); the mode of the residuals is a parameter |
| `hist` | samples, median lines, axis ends and the added column modelled (`Panels.v`, C73); bins and fonts not. Panels are in order of first appearance in `reserve_dist`, labels in increasing order: they agree because every simulation lists its origins in increasing order |
| `plot`, `_bs_data_transform`, `_get_quantiles_by_devp` | the records drawn (`BsPlot.v`, C76), with flags for the two keywords the pinned versions do not accept; the dropped "total" rows, the grid, colours, ticks and fill not |
| `utils.py` | modelled; files are a finite map from paths to tables |
| `datasets/__init__.py`, `__init__.py` | modelled as the dataset reference passed to `utils` |

Not modelled anywhere: non-numeric cells, date labels, duplicate column names,
one column used in two roles, threads, warnings.

## 6. Findings

Where the property as a user would state it is false of the code, the model
proves the negation (`_refuted`) next to the strongest version found.

**Building triangles.**
* The cumulative constructor accumulates in row order *before* aggregating:
  unsorted rows, duplicate (origin, dev) records and stacked companies give
  cells that are sums of running totals (C03, C04, C08).
* A NaN record becomes a cumulative 0; at the first period it gives an
  incremental cell 0, and rebuilding gives 1 (C09, C14).  In a table of cumulative
  losses the value before the NaN is added to every later value of the origin (C09).
* `CumTriangle(df, …)` adds a column "cumval" to the caller's frame; a value
  column called "cumval" raises; `CumTriangle(df)` without names raises.
* Missing actuals stay NaN when the last observed rows of the columns are not
  decreasing (C05). `to_incr` drops everything after a gap.
* Tabular input with an unknown `data_format` is silently incremental; a
  missing value column passes when a column "cum" exists (C16).
* With other column names `to_tbl`, `latest`, `to_cum`, and triangle-shaped
  input fail (C15).
* `diagonal` with a positive in-range offset raises KeyError (C13).
* `totri` caches the column offsets before the fill loop ends; they can differ
  from those of the final cells (C27_stale_offsets_refuted).

**Factors and chain ladder.**
* Weighted averages, hence the default `base_cl()`, ignore `a2aind`, and so does
  `boot_cl` as long as the latest link ratio of each column is kept; switching
  off the latest link ratio of a column makes `a2a_avgs` raise (C21).
* `tri.a2aind = …` before any read of `tri.a2aind` raises (C18).
* The tail factor is labelled with the last-but-one period plus the smallest
  earlier step. When that is not the last period (12, 24, 48), the oldest origin
  shows no cumulative factor and no emergence; nothing else changes (C22, C53). On a square triangle that is not a run-off
  triangle the ultimate is not latest × cldf at maturity (C23).
* A 0/0 link ratio of the oldest origin makes `a2a_avgs` and `base_cl` (whatever
  the average, the default included) raise IndexError; lower in a column, a 0/0
  hides all younger link ratios from the averages that are not weighted (C68).
* A `Series` passed as `sel` is modified in place, the second call fails (C26).

**Mack.**
* `tail` is ignored (C50). Fewer than four periods raise.
* When the two variances before the last are 0, the last is NaN and all errors
  are 0 (C32).
* The lognormal matches the reserve only from 1 upwards; below, its mean is 1, also for
  the oldest origin, whose reserve is always 0; a negative reserve gives scale NaN (C34).
* The process error and the covariance term of the total use C^1 for every alpha: for
  alpha = 0 or 2 the standard error depends on the currency unit (C52).
* The residual scale is `sum/n - 1` instead of `sum/(n-1)` (C49).

**Diagnostics.** Link ratios within numpy's tolerance of the median count
neither as high nor as low (C45).

**Bootstrap.**
* dof is too large by 2 × origins (C39).
* The first period is recognised by the label 1 (C41). With a larger first label every
  simulated ultimate lacks the origin's first resampled increment, in every simulation
  of every run-off triangle (`C74_other_label_refuted`). With labels 0, 1, 2, … the losses
  up to the period labelled 1 are booked twice, and without noise every ultimate is too
  large (`C41_other_labels_refuted`).
* With the first period labelled 1, a bootstrap without noise gives the chain ladder
  ultimates exactly when no development factor is below 1 (`C41_reproduced_iff`).
* Simulations influence the next one when the last factor is below 1, and when
  more than one origin is observed at the last period: the table of factors, shifted
  over all simulations at once, then loses or gains a record (C42). `C42_last_factor_below_1_refuted`
  gives every record of every such triangle: the last factor of a simulation is its first-period total over the oldest
  origin's loss in the simulation before, and 0 in the first simulation, whose ultimates are then 0 with variates at their means. A missing ultimate is reported with reserve 0 (C43).
* The summary's reserve is the mean ultimate less the *observed* latest loss; the
  simulated reserves subtract the *simulated* one, so their mean differs (C63).
* With the pinned scipy 1.11.4 `residuals_detail` raises IndexError for every
  non-parametric result: `stats.mode(x).mode` is a number, indexed by `[0]` (C66).
* `plot` of a Mack result takes its data from the base class' `_data_transform` and
  reads columns "x" and "y" there, `diagnostics` melts the squared triangle with
  `var_name="dev"` and reads "devp": both raise KeyError on every result (C70).
* `CumTriangle.plot ()` raises KeyError if an origin has no observed loss (C71).
* `plot ()` of a chain ladder result draws empty panels: the grid is built and labelled
  but no `grid.map` call puts the losses on it (C72).  `hue_kws` is documented as pairs
  but applied only when every entry has length 4.
* `hist ()` adds a column `origin_index` to the result's own `reserve_dist` (C73).
* Trapezoidal triangles (more or fewer origins than periods) are refused by `base_cl` and
  `mack_cl` with an unrelated ValueError about array shapes; two-period triangles raise
  IndexError with every named average, the default included; `mack_cl` needs four periods (C77).
* `tri.a2aind = (o, d, v)` accepts any labels and enlarges the table: with the last development
  period, or an origin before the first, every later `a2a_avgs` and `base_cl` raises IndexError (C78),
  and `mack_cl` raises ValueError for such a period. An origin missing between two others of the triangle
  silently removes the link ratios of all later origins from the averages (`C78_any_origins`).
* The covariance terms of Mack's total error always divide by sums of losses (the
  formula for alpha = 1), whatever alpha is (C80): with alpha = 2 the total standard
  error can exceed the sum of the standard errors (`C80_total_at_most_sum_refuted`).
* With `dist="lognorm"` a row of the Mack summary whose reserve is zero or negative (losses
  expected to fall) shows NaN at every quantile, without a warning (C61).
* Printed figures are rounded one by one (C81): in a printed result the reserve can differ
  by one from ultimate minus latest, even for whole losses, and the total row by up to half
  a unit per row from the sum of the rows.
* The errors of an origin depend on periods it has long passed: the variance of the last link ratio is extrapolated from the two before it, so changing first-period losses moves the standard errors of the most mature origins (`C84_errors_refuted`; Mack's own rule, but it breaks locality).
* Mack's variance parameters divide by the number of observed link ratios less one even if some are excluded through `a2aind`, so excluding ratios understates the variance estimated from the others (`C86_variance_with_exclusions_refuted`; mack.py 325-327).
* With averages that do not weight by volume, the factor of two books together can lie outside the range
  of the two books' own factors (C88_simple_average_refuted).
* `mack_cl(alpha=0)` counts the indicators of cells without a link ratio in the denominator (NaN ** 0 is 1): with
  every indicator set to 1 its straight averages are too small (C90).
* Medial averages are discontinuous: every ratio equal to the smallest or largest is dropped, so a difference in the
  last digit can move the factor by any amount (C91).
* A higher latest loss can lower the estimates of a medial average (C96): the average
  leaves out every link ratio equal to the lowest or highest, so of 1.5, 1.5, 2 and 3 it
  keeps 2 alone, while raising one 1.5 to 1.75 makes it average 1.75 and 2.
* A development factor below 1 wipes an origin out of the bootstrap (C97): for every such
  triangle (the factor not being the last), the origin whose latest period follows the
  first such factor has a NaN latest resampled value, so its latest, ultimate and reserve
  are 0 in every simulation, and the summary shows ultimate 0 and reserve minus its
  whole latest loss.
* When the last factor is below 1, the youngest origin reaches the others in the
  bootstrap: the last kept factor of every simulation but the first has the total of
  the first development period, youngest origin included, as numerator
  (`C95_last_factor_below_1_refuted`).
* With an integer `random_state`, `_bs_samples` and `_bs_process_error` each call `RandomState(random_state)`, so the gamma variates are made from the very numbers that picked the residuals; estimation error and process error share their randomness (`C100_integer_seed_refuted`).
* `_sampling_dist` neither centres the residuals nor keeps the zero ones, so resampling is biased: the simulated latest losses are on average the observed ones plus the mean residual times the total of the roots of the fitted increments, and agree with them exactly if the residuals add up to 0 (`C101_unbiased_iff`, `C101_unbiased_refuted`).
* Fitted increments below 0 have no square root and drop out of the resampled losses, so an origin whose losses fell on the way to its latest period is simulated with a latest loss that is on average too large by exactly the fitted decreases (`C101_falling_losses`, `C101_overstated_refuted`).
* `plot` of a bootstrap result raises TypeError on every result (C76): it passes
  `two_sided` to the result's `_qtls_formatter`, which takes only `q`, and `method` to
  pandas' `groupby.quantile`, which the pinned pandas 2.1.4 does not have.
* Data fitting exactly, and a value column not called "value", raise (C38, C41).

**Quantiles, ticks, utilities.**
* Headers of quantiles closer than 1e-7 collide (C36); the column then holds the largest of
  them (C36_get_columns). `get_quantiles` calls the 11th, 12th and 13th percentiles 11st,
  12nd and 13rd (C36_ordinals_refuted).
* The "total" line of `plot()` sums at each period only the origins forecast there
  (at the first period: the youngest origin alone), not all origins (C64).
* Axis ticks raise for maxima ≤ 1, powers of ten and ≥ 1e10 (C48).
* `load("lrdb")` raises KeyError; `lrdb.csv` is not part of the pinned tree.
  `loss_type` is compared case-sensitively on its first letter.

## 7. Testing the theorems

`seeded/LOG.jsonl` records edits of the model that imitate realistic bugs. For
each edit a scratch copy is rebuilt, every proof that fails is replaced by
`Admitted`, and the property theorems that come to depend on an admitted lemma
are listed as failed. An edit whose claim survives is either harmless (the
note says why) or led to a tightened theorem.
