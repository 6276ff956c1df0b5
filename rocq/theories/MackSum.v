(** The summary of Mack's chain ladder, mack.py 119-181 and 208, as a table: the
    columns of the default estimator, the standard errors and the coefficients of
    variation.  (The quantile columns are in QtlClaims.v and Quant.v.)  Definitions only. *)

From Coq Require Import String QArith Qcanon Reals ZArith List Bool.
From Verif Require Import Val QcLib Frame Triangle A2A Base Mack Dist.
Import ListNotations.
Open Scope list_scope.

(** A row of the summary; [None] as origin: the total, whose maturity is the empty text
    ([None]) and whose cldf and emergence are NaN. *)
Record mrow := mkMrow {
  y_origin : option Z; y_maturity : option Z; y_cldf : val; y_emergence : val;
  y_latest : val; y_ultimate : val; y_reserve : val; y_std_error : fl; y_cv : fl }.

(** Line 208: [dfsumm.loc[self.tri.index.min(), ["cv"] + ...] = np.NaN]. *)
Definition blank_first (os : list Z) (r : mrow) : mrow :=
  match y_origin r with
  | Some o => if (o =? zmin os)%Z
              then mkMrow (y_origin r) (y_maturity r) (y_cldf r) (y_emergence r) (y_latest r) (y_ultimate r)
                          (y_reserve r) (y_std_error r) FNaN
              else r
  | None => r
  end.

(** Lines 137-153 and 180-181. *)
Definition mack_table (k : mack_result) : list mrow :=
  let os := map s_origin (c_rows (k_cl k)) in
  let '(l, u, res) := c_total (k_cl k) in
  let rows := map (fun r s c => mkMrow (Some (s_origin r)) (Some (s_maturity r)) (s_cldf r) (s_emergence r)
                                       (s_latest r) (s_ultimate r) (s_reserve r) s c) (c_rows (k_cl k))
              ++ [fun s c => mkMrow None None NaN NaN l u res s c] in
  map (fun p => blank_first os (fst p (fst (snd p)) (snd (snd p))))
      (combine rows (combine (mack_std_errors k) (mack_cvs k))).
