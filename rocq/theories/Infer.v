(** The significance tests of Mack's chain ladder (mack.py 673-701, 791-815) and the
    quantiles of its reserve distributions (mack.py 199-208, 837-862), over the real
    numbers.  Definitions only.

    [cdf], [ppf]: scipy's [norm.cdf] and [norm.ppf].  [root f x0]: scipy's
    [optimize.root (f, x0).x], a search for a zero of [f] started at [x0]. *)

From Coq Require Import String QArith Qcanon Qreals Reals List Bool.
From Verif Require Import Val QcLib Frame Triangle A2A Base Mack Diag Dist Quant.
Import ListNotations.
Open Scope list_scope.
Local Open Scope R_scope.

(** mack.py 673-701 [devp_corr_test]; [x0] is the draw of [np.random.rand ()]. *)
Definition devp_corr_test (cdf : R -> R) (root : (R -> R) -> R -> R) (m : lmat) (p x0 : R)
  : res (fl * fl * val) :=
  let z := root (fun x => cdf x - cdf (- x) - p) x0 in
  let s := fsqrt (of_val (Fin (devp_corr_test_var m))) in
  do t <- spearman_total m ;
  Ok (fdiv (FR (- z)) s, fdiv (FR z) s, t).

(** mack.py 808-811: the column sums of the calendar year table, missing values
    skipped. *)
Definition sum_opt (l : list (option Qc)) : Qc :=
  fold_right (fun o s => match o with Some x => x + s | None => s end)%Qc 0%Qc l.
Definition cy_Z (rows : list cy_row) : nat := fold_right (fun r s => y_Z r + s)%nat O rows.
Definition cy_E (rows : list cy_row) : Qc := sum_opt (map y_E rows).
Definition cy_V (rows : list cy_row) : Qc := sum_opt (map y_V rows).

(** mack.py 791-815 [cy_effects_test]. *)
Definition cy_effects_test (ppf : R -> R) (m : lmat) (p : R) : res (fl * fl * nat) :=
  do rows <- cy_effects_table m ;
  let mu := of_val (Fin (cy_E rows)) in
  let v := of_val (Fin (cy_V rows)) in
  let mult := Rabs (ppf (p / 2)) in
  let w := fscal mult (fsqrt v) in
  Ok (fsub mu w, match mu with FR a => fadd a w | _ => mu end, cy_Z rows).

(** [rv.ppf (q)] of scipy's frozen distributions: NaN unless the scale (and the shape)
    is positive; the ends of the support at 0 and 1.  (Infinite parameters: NaN here;
    the fitted lognormal has an infinite shape only with scale 0, where scipy gives
    NaN as well.) *)
Definition rv_ppf (ppf : R -> R) (d : rv) (q : Qc) : fl :=
  let x := Q2R q in
  match d with
  | Norm (FR loc) (FR scale) =>
      if Rlt_dec 0 scale then
        if Rlt_dec x 0 then FNaN else if Rlt_dec 1 x then FNaN
        else if Req_EM_T x 0 then FNInf else if Req_EM_T x 1 then FPInf
        else FR (ppf x * scale + loc)
      else FNaN
  | Lognorm (FR s) (FR scale) =>
      if Rlt_dec 0 s then if Rlt_dec 0 scale then
        if Rlt_dec x 0 then FNaN else if Rlt_dec 1 x then FNaN
        else if Req_EM_T x 0 then FR 0 else if Req_EM_T x 1 then FPInf
        else FR (exp (s * ppf x) * scale)
      else FNaN else FNaN
  | _ => FNaN
  end.

(** The quantile columns of the summary (mack.py 183-208) and [get_quantiles] (837-862). *)
Definition mack_summary_table (ppf : R -> R) (dist : string) (k : mack_result) (q : list val) (two_sided : bool)
  : res (list (string * list fl)) :=
  do rvs <- mack_rvs dist k ;
  mack_summary_quantiles FNaN (map (rv_ppf ppf) rvs) q two_sided.
Definition mack_quantile_table (ppf : R -> R) (dist : string) (k : mack_result) (q : list val)
  : res (list (string * list fl)) :=
  do rvs <- mack_rvs dist k ;
  mack_get_quantiles (map (rv_ppf ppf) rvs) q.
