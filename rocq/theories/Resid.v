(** Model of the residuals of /repo/trikit/estimators/mack.py 550-598.  Definitions only.
    Standard deviations are kept squared. *)

From Coq Require Import String QArith Qcanon ZArith List Bool Lia.
From Verif Require Import Val QcLib Frame Triangle A2A Base Mack.
Import ListNotations.
Open Scope list_scope.
Open Scope nat_scope.

(** A row of the residual tables: index label, residual, [sigma] squared, the square of
    the divisor of [std_residuals], group label. [std_residuals] is
    [z_res / sqrt(z_scale2)], NaN when [z_sigma2 < 0]. *)
Record resid := mkResid { z_key : Z; z_res : val; z_sigma2 : val; z_scale2 : val; z_t : Z }.

(** mack.py 570-573, 591-595: one block of residuals.  Line 571 and 593 read
    [sum / n - 1], i.e. [(sum / n) - 1]. *)
Definition resid_block (t : Z) (rs : list (Z * val)) : list resid :=
  let n := Z.of_nat (List.length rs) in
  let s2 := vsub (vdiv (skipsum (map (fun p => vmul (snd p) (snd p)) rs)) (vz n)) (vz 1) in
  let d2 := vmul s2 (vdiv (vz (n - 1)) (vz n)) in
  map (fun p => mkResid (fst p) (snd p) s2 d2 t) rs.

(** mack.py 550-576 [_residuals_by_devp]: all transitions but the last one. With fewer than
    three development periods [pd.concat] has nothing to join. Simplification: a factor
    missing from [ldfs] is NaN. *)
Definition residuals_by_devp (m : lmat) (ldfs : series) : res (list resid) :=
  let block j :=
    let x := nth j (m_cols m) 0%Z in
    let idx := filter (fun i => negb (isnan (cell (m_cells m) i (S j)))) (seq 0 (nrows m)) in
    resid_block x (map (fun i => (nth i (m_idx m) 0%Z,
      vsub (vmul (cell (m_cells m) i j) (slookup ldfs x)) (cell (m_cells m) i (S j)))) idx) in
  match seq 0 (ncols m - 2) with
  | [] => Err ValueError
  | js => Ok (flat_map block js)
  end.

(** mack.py 579-598 [_residuals_by_origin]: all origins but the last one. Modelled for
    factors indexed by the triangle's development periods. *)
Definition residuals_by_origin (m : lmat) (ldfs : series) : res (list resid) :=
  if negb (listb Z.eqb (map fst ldfs) (m_cols m)) then Err Unmodelled else
  let block i :=
    let o := nth i (m_idx m) 0%Z in
    let yact j := cell (m_cells m) i j in
    let yhat j := match j with
                  | O => NaN
                  | S k => vmul (yact k) (slookup ldfs (nth k (m_cols m) 0%Z))
                  end in
    let js := filter (fun j => negb (isnan (yact j)) && negb (isnan (yhat j))) (seq 0 (ncols m)) in
    resid_block o (map (fun j => (nth j (m_cols m) 0%Z, vsub (yhat j) (yact j))) js) in
  match seq 0 (nrows m - 1) with
  | [] => Err ValueError
  | is_ => Ok (flat_map block is_)
  end.
