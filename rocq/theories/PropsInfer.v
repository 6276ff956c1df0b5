(** C59-C61: significance tests and reserve quantiles of Mack's chain ladder. *)

From Coq Require Import String QArith Qcanon Qreals Reals Lra Lia ZArith List Bool.
From Verif Require Import Val Frame Triangle A2A Base Mack Diag QcLib Spec Spec2 SpecDist SpecTail SpecQuant Dist Quant
  Infer SpecInfer PermVar InferClaims QtlClaims ExTri ExMack PropsDiag PropsDist PropsQuant DistClaims.
Import ListNotations.
Open Scope list_scope.
Local Open Scope R_scope.

(** ** C59.  The interval of [devp_corr_test (p)] is the central interval of probability
    [p] of a normal law around 0 whose variance is 1 over the sum of the weights
    n - k - 1 that the test statistic averages with.  ([cdf] is exact; the search for
    the bound found a zero.) *)
Theorem C59_correlation_interval :
  forall (cdf : R -> R) (root : (R -> R) -> R -> R) (m : lmat) (n : nat) (C : nat -> nat -> Qc) (p x0 : R),
  std_cdf cdf -> regular m n C -> positive n C -> (3 < n)%nat -> 0 < p < 1 ->
  (let f x := cdf x - cdf (- x) - p in f (root f x0) = 0) ->
  exists (z : R) (q : Qc),
    0 < z /\ prob_between (normal 0 1) (- z) z p /\
    spearman_total m = Ok (Fin q) /\
    let sd := sqrt (/ Q2R (sumf 2 (n - 3) (fun k => qn (n - k - 1)))) in
    0 < sd /\
    devp_corr_test cdf root m p x0 = Ok (FR (- (z * sd)), FR (z * sd), Fin q) /\
    prob_between (normal 0 sd) (- (z * sd)) (z * sd) p.
Proof. exact c59. Qed.
Print Assumptions C59_correlation_interval.

(** Whatever solver is used and wherever it starts (the code starts at a random point). *)
Theorem C59_start_irrelevant :
  forall (cdf : R -> R) (root root' : (R -> R) -> R -> R) (p x0 x1 : R), std_cdf cdf ->
  (let f x := cdf x - cdf (- x) - p in f (root f x0) = 0 /\ f (root' f x1) = 0) ->
  forall m, devp_corr_test cdf root m p x0 = devp_corr_test cdf root' m p x1.
Proof. exact c59_start. Qed.
Print Assumptions C59_start_irrelevant.

(** Why those weights: over all N! rankings, equally likely, Spearman's coefficient has
    mean 0 and variance 1 / (N - 1), the reciprocal of its weight (N = n - k). *)
Theorem C59_null_variance : forall N, (2 <= N)%nat ->
  average (spearman N) (orderings N (seq 1 N)) = 0%Qc /\
  average (fun r => spearman N r * spearman N r)%Qc (orderings N (seq 1 N)) = (1 / qn (N - 1))%Qc.
Proof. exact perm_moments. Qed.
Print Assumptions C59_null_variance.

(** A solver, an exact cdf and a triangle as required; all 6 rankings of 3. *)
Definition lub_cdf (x : R) : R := Gauss.Phi0 x + 1 / 2.
Definition exact_root (p : R) (f : (R -> R)) (x0 : R) : R := lub_ppf ((1 + p) / 2).
Example C59_nonvacuous :
  std_cdf lub_cdf /\ regular sp_m 5 sp_C /\ positive 5 sp_C /\
  (forall p x0, 0 < p < 1 -> let f x := lub_cdf x - lub_cdf (- x) - p in f (exact_root p f x0) = 0) /\
  List.length (orderings 3 (seq 1 3)) = 6%nat /\ In [3; 1; 2]%nat (orderings 3 (seq 1 3)) /\
  spearman 3 [3; 1; 2]%nat = (- (1 / qz 2))%Qc.
Proof.
  split; [intro x; apply GaussTail.prob_le_iff; reflexivity|].
  split; [apply sp_regular|]. split; [apply sp_positive|]. split.
  - intros p x0 Hp. cbv beta zeta. unfold lub_cdf, exact_root. rewrite Gauss.Phi0_odd.
    rewrite (ppf_eq _ lub_ppf_std) by lra. lra.
  - split; [reflexivity|]. split; [simpl; tauto|]. apply Qc_is_canon. vm_compute. reflexivity.
Qed.

(** ** C60.  [cy_effects_test (p)]: the statistic is the number of the less frequent kind
    of ratios, summed over the diagonals; the bounds are symmetric around the sum of the
    exact means, and enclose 1 - p of the normal law with the summed exact means and
    variances.  ([low], [high]: ratios below and above the median of their period,
    except those within the tolerance of it, see C45.) *)
Theorem C60_calendar_year_interval :
  forall (ppf : R -> R) (m : lmat) (n : nat) (C : nat -> nat -> Qc) (med : nat -> Qc) (p : R),
  std_ppf ppf -> regular m n C -> positive n C -> (2 < n)%nat ->
  evenly_spaced (m_cols m) -> evenly_spaced (m_idx m) -> 0 < p <= 1 ->
  let F i p := (C i (S p) / C i p)%Qc in
  (forall p, (p < n - 1)%nat -> is_median (map (fun i => F i p) (seq 0 (n - 1 - p))) (med p)) ->
  let low j := on_diagonal j (fun i p => qcltb (F i p) (med p) && negb (near (F i p) (med p))) in
  let high j := on_diagonal j (fun i p => qcltb (med p) (F i p) && negb (near (F i p) (med p))) in
  let fewer s t := qn (Nat.min s (t - s)) in
  let E := sumf 2 (n - 2) (fun j => mean_half (low j + high j) (fun s => fewer s (low j + high j)%nat)) in
  let V := sumf 2 (n - 2) (fun j => var_half (low j + high j) (fun s => fewer s (low j + high j)%nat)) in
  exists lb ub,
    cy_effects_test ppf m p =
      Ok (FR lb, FR ub, list_sum (map (fun j => Nat.min (low j) (high j)) (seq 2 (n - 2)))) /\
    (0 <= V)%Qc /\ lb <= Q2R E <= ub /\ Q2R E - lb = ub - Q2R E /\
    (V = 0%Qc -> lb = Q2R E /\ ub = Q2R E) /\
    ((0 < V)%Qc -> prob_between (normal (Q2R E) (sqrt (Q2R V))) lb ub (1 - p)).
Proof. exact c60. Qed.
Print Assumptions C60_calendar_year_interval.

(** The triangle of C45: counts (2,0), (1,1), (0,3), so Z = 1 and V = 1/4 + 1/4 + 3/16. *)
Example C60_nonvacuous :
  std_ppf lub_ppf /\ regular sp_m 5 sp_C /\ positive 5 sp_C /\
  (evenly_spaced (m_cols sp_m) /\ evenly_spaced (m_idx sp_m)) /\
  (forall p, (p < 4)%nat -> is_median (map (fun i => (sp_C i (S p) / sp_C i p)%Qc) (seq 0 (5 - 1 - p))) (sp_med p)) /\
  match cy_effects_table sp_m with
  | Ok rows => cy_Z rows = 1%nat /\ this (cy_E rows) = 7 # 4 /\ this (cy_V rows) = 11 # 16
  | Err _ => False
  end.
Proof.
  split; [apply lub_ppf_std|]. split; [apply sp_regular|]. split; [apply sp_positive|].
  split; [apply sp_spaced|]. split; [apply sp_median|]. vm_compute. auto.
Qed.

(** ** C61.  With [dist="norm"] every quantile shown for a row with a positive standard
    error is the quantile of the normal law having the row's reserve as mean and the
    row's standard error as standard deviation.  Columns are increasing, the two columns
    of a two-sided level c enclose probability c symmetrically around the reserve, the
    median is the reserve. *)
Theorem C61_normal_quantiles :
  forall (ppf : R -> R) (k : mack_result) (i : nat) (reserve std_error : R) (q : list val) (two_sided : bool)
         (cols : list (string * list fl)),
  std_ppf ppf ->
  nth_error (mack_reserves k) i = Some (FR reserve) ->
  nth_error (mack_std_errors k) i = Some (FR std_error) -> 0 < std_error ->
  apart q two_sided -> shown_by ppf "norm" k q two_sided i cols ->
  exists loc scale qs (entry : R -> R),
    mean (normal loc scale) reserve /\ std_dev (normal loc scale) std_error /\
    lists_wanted q two_sided qs /\ List.length cols = List.length qs /\
    (forall j x, nth_error qs j = Some x ->
       exists h col, nth_error cols j = Some (h, col) /\ nth_error col i = Some (entry_of FNInf entry x)) /\
    (forall p, 0 < p < 1 -> prob_le (normal loc scale) (entry p) p) /\
    (forall p p', 0 < p -> p < p' -> p' < 1 -> entry p < entry p') /\
    (forall c, 0 < c < 1 -> prob_between (normal loc scale) (entry ((1 - c) / 2)) (entry ((1 + c) / 2)) c /\
       reserve - entry ((1 - c) / 2) = entry ((1 + c) / 2) - reserve) /\
    entry (1 / 2) = reserve.
Proof. exact c61_normal. Qed.
Print Assumptions C61_normal_quantiles.

(** With [dist="lognorm"] and a positive reserve: of the fitted lognormal (whose mean is
    the reserve from 1 upwards, C34).  The median is below the mean. *)
Theorem C61_lognormal_quantiles :
  forall (ppf : R -> R) (k : mack_result) (i : nat) (reserve std_error : R) (q : list val) (two_sided : bool)
         (cols : list (string * list fl)),
  std_ppf ppf ->
  nth_error (mack_reserves k) i = Some (FR reserve) ->
  nth_error (mack_std_errors k) i = Some (FR std_error) -> 0 < reserve -> 0 < std_error ->
  apart q two_sided -> shown_by ppf "lognorm" k q two_sided i cols ->
  exists s c qs (entry : R -> R),
    mean (lognormal s c) (Rmax reserve 1) /\ std_dev (lognormal s c) (Rmax reserve 1 * (std_error / reserve)) /\
    lists_wanted q two_sided qs /\ List.length cols = List.length qs /\
    (forall j x, nth_error qs j = Some x ->
       exists h col, nth_error cols j = Some (h, col) /\ nth_error col i = Some (entry_of (FR 0) entry x)) /\
    (forall p, 0 < p < 1 -> 0 < entry p /\ prob_le (lognormal s c) (entry p) p) /\
    (forall p p', 0 < p -> p < p' -> p' < 1 -> entry p < entry p') /\
    (forall l, 0 < l < 1 -> prob_between (lognormal s c) (entry ((1 - l) / 2)) (entry ((1 + l) / 2)) l) /\
    entry (1 / 2) < Rmax reserve 1.
Proof. exact c61_lognormal. Qed.
Print Assumptions C61_lognormal_quantiles.

(** A row without error (a fully developed origin) has no quantiles. *)
Theorem C61_no_error :
  forall (ppf : R -> R) (k : mack_result) (i : nat) (reserve : R) (q : list val) (two_sided : bool)
         (cols : list (string * list fl)),
  nth_error (mack_reserves k) i = Some (FR reserve) ->
  nth_error (mack_std_errors k) i = Some (FR 0) ->
  apart q two_sided -> shown_by ppf "norm" k q two_sided i cols ->
  forall h col, In (h, col) cols -> nth_error col i = Some FNaN.
Proof. exact c61_no_error. Qed.
Print Assumptions C61_no_error.

(** [get_quantiles ([.5, .75])] on the example run. *)
Example C61_nonvacuous :
  std_ppf lub_ppf /\ apart ex_q false /\
  (exists cols, shown_by lub_ppf "norm" ex_k ex_q false 1 cols /\ List.length cols = 2%nat) /\
  (exists e, nth_error (mack_reserves ex_k) 1 = Some (FR 10) /\
     nth_error (mack_std_errors ex_k) 1 = Some (FR e) /\ 1 <= 10 /\ 0 < e).
Proof.
  split; [apply lub_ppf_std|]. split; [apply ex_apart|]. split; [|apply C34_nonvacuous].
  assert (E : exists h1 h2, result_formatter ex_q = Ok ([half; (qz 3 / qz 4)%Qc], [h1; h2]) /\ h1 <> h2).
  { eexists _, _. split; [vm_compute; reflexivity|discriminate]. }
  destruct E as (h1 & h2 & E & N). apply String.eqb_neq in N.
  eexists. split; [left; split; [reflexivity|]|].
  - unfold mack_quantile_table, mack_get_quantiles. rewrite E.
    cbn [mack_rvs String.eqb Ascii.eqb Bool.eqb bind fst snd].
    unfold columns_of. cbn [combine fold_left dict_set fst snd]. rewrite N. reflexivity.
  - reflexivity.
Qed.

(** With [dist="lognorm"] a row with a reserve of zero or below (losses expected to
    fall) has no quantiles at any level, however large its standard error. *)
Theorem C61_lognormal_without_positive_reserve :
  forall (ppf : R -> R) (k : mack_result) (i : nat) (reserve std_error : R) (q : list val) (two_sided : bool)
         (cols : list (string * list fl)),
  nth_error (mack_reserves k) i = Some (FR reserve) ->
  nth_error (mack_std_errors k) i = Some (FR std_error) -> reserve <= 0 \/ std_error = 0 ->
  apart q two_sided -> shown_by ppf "lognorm" k q two_sided i cols ->
  forall h col, In (h, col) cols -> nth_error col i = Some FNaN.
Proof. exact c61_no_lognormal. Qed.
Print Assumptions C61_lognormal_without_positive_reserve.

(** Salvage in the last period: the second origin's reserve is 180 (150/160) - 180. *)
Definition fall_rows : list (list Z) := [[100; 150; 160; 150]; [110; 170; 180; 0]; [120; 190; 0; 0]; [130; 0; 0; 0]]%Z.
Definition fall_m : lmat := mkMat [1; 2; 3; 4]%Z [1; 2; 3; 4]%Z
  (map (fun i => map (fun j => if (i + j <? 4)%nat then Fin (qz (nth j (nth i fall_rows []) 0%Z)) else NaN) (seq 0 4)) (seq 0 4)).
Definition fall_k : mack_result :=
  ok_or no_result (mack_cl (mkTri fall_m "origin" "dev" "value") [3; 2; 1; 0]%nat (a2aind_init fall_m) 1 (vz 1)).
Example C61_falling_nonvacuous :
  mack_cl (mkTri fall_m "origin" "dev" "value") [3; 2; 1; 0]%nat (a2aind_init fall_m) 1 (vz 1) = Ok fall_k /\
  (exists r e, nth_error (mack_reserves fall_k) 1 = Some (FR r) /\ nth_error (mack_std_errors fall_k) 1 = Some (FR e) /\
     r <= 0 /\ 0 < e) /\
  (exists cols, shown_by lub_ppf "lognorm" fall_k ex_q false 1 cols /\ List.length cols = 2%nat).
Proof.
  split; [vm_compute; reflexivity|]. split.
  - assert (R : some_q (nth_error (map s_reserve (c_rows (k_cl fall_k))) 1) = Some (-45 # 4)%Q) by (vm_compute; reflexivity).
    assert (E : exists q, some_q (nth_error (k_mse fall_k) 1) = Some q /\ (0 < q)%Q)
      by (eexists; split; vm_compute; reflexivity).
    destruct E as (q & E & Q0). apply some_q_fin in R. apply some_q_fin in E.
    destruct R as (r & R & Rv). destruct E as (e & E & Ev).
    apply reserves_row in R. apply std_errors_row in E; [|unfold Qcle; rewrite Ev; apply Qlt_le_weak, Q0].
    rewrite Rv in R. rewrite Ev in E. eexists _, _. split; [exact R|]. split; [exact E|]. split.
    + unfold Q2R; simpl; lra.
    + apply sqrt_lt_R0. rewrite <- RMicromega.Q2R_0. apply Q2R_gt. exact Q0.
  - assert (E : exists h1 h2, result_formatter ex_q = Ok ([half; (qz 3 / qz 4)%Qc], [h1; h2]) /\ h1 <> h2).
    { eexists _, _. split; [vm_compute; reflexivity|discriminate]. }
    destruct E as (h1 & h2 & E & N). apply String.eqb_neq in N.
    eexists. split; [left; split; [reflexivity|]|].
    + unfold mack_quantile_table, mack_get_quantiles. rewrite E.
      cbn [mack_rvs String.eqb Ascii.eqb Bool.eqb bind fst snd].
      unfold columns_of. cbn [combine fold_left dict_set fst snd]. rewrite N. reflexivity.
    + reflexivity.
Qed.
