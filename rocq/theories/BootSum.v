(** The summary of the bootstrap chain ladder, bootstrap.py 175-208 and 714-736
    ([_bs_std_error]): point estimates, standard errors and coefficients of variation.
    Standard errors are real numbers.  Definitions only.  (The maturity, cldf and
    emergence columns are those of [base_cl], and are left out.) *)

From Coq Require Import String QArith Qcanon Reals ZArith List Bool.
From Verif Require Import Val QcLib Frame Triangle A2A Base Boot Quant Dist.
Import ListNotations.
Open Scope list_scope.

(** A row of the summary; [None]: the total. *)
Record brow := mkBrow {
  w_origin : option Z; w_latest : val; w_ultimate : val; w_reserve : val; w_std_error : fl; w_cv : fl }.

(** Lines 714-736: [std(ddof=1)] of the simulated reserves by origin, then of their
    sums by simulation. *)
Definition boot_std_errors (b : boot_result) : list fl :=
  map (fun v => fsqrt (of_val v))
      (boot_variances (o_reserves b) (map (fun r => fst (fst (fst r))) (o_summary b))).
(** Lines 178-208. *)
Definition boot_table (b : boot_result) : list brow :=
  let cols := map (fun r => let '(o, l, u, r) := r in (Some o, l, u, r)) (o_summary b)
              ++ [let '(l, u, r) := o_total b in (None, l, u, r)] in
  map (fun p => let '((o, l, u, r), se) := p in mkBrow o l u r se (fdiv se (of_val r)))
      (combine cols (boot_std_errors b)).
