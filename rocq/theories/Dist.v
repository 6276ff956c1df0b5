(** The reserve distributions of Mack's chain ladder (mack.py 134-136, 150-206), over
    the real numbers: square roots and logarithms leave the rationals. *)

From Coq Require Import String QArith Qcanon Qreals Reals List Bool.
From Verif Require Import Val Frame Triangle A2A Base Mack.
Import ListNotations.
Open Scope list_scope.

(** A float without rounding: IEEE special values and the real numbers. *)
Inductive fl := FNaN | FPInf | FNInf | FR (r : R).

Definition of_val (v : val) : fl :=
  match v with NaN => FNaN | PInf => FPInf | NInf => FNInf | Fin q => FR (Q2R (this q)) end.

Local Open Scope R_scope.
(** np.sqrt *)
Definition fsqrt (x : fl) : fl :=
  match x with
  | FR r => if Rlt_dec r 0 then FNaN else FR (sqrt r)
  | FPInf => FPInf
  | _ => FNaN
  end.
(** np.log *)
Definition flog (x : fl) : fl :=
  match x with
  | FR r => if Rlt_dec r 0 then FNaN else if Req_EM_T r 0 then FNInf else FR (ln r)
  | FPInf => FPInf
  | _ => FNaN
  end.
(** np.exp *)
Definition fexp (x : fl) : fl :=
  match x with FR r => FR (exp r) | FPInf => FPInf | FNInf => FR 0 | FNaN => FNaN end.
(** x / y *)
Definition fdiv (x y : fl) : fl :=
  match x, y with
  | FR a, FR b => if Req_EM_T b 0 then (if Req_EM_T a 0 then FNaN else if Rlt_dec a 0 then FNInf else FPInf)
                  else FR (a / b)
  | FR _, FPInf => FR 0
  | FR _, FNInf => FR 0
  | FPInf, FR b => if Rlt_dec b 0 then FNInf else FPInf
  | FNInf, FR b => if Rlt_dec b 0 then FPInf else FNInf
  | _, _ => FNaN
  end.
(** x ** 2 *)
Definition fsq (x : fl) : fl :=
  match x with FR a => FR (a * a) | FPInf | FNInf => FPInf | FNaN => FNaN end.
(** a + x and c * x for finite a and c > 0, x - y for finite y *)
Definition fadd (a : R) (x : fl) : fl := match x with FR b => FR (a + b) | _ => x end.
Definition fscal (c : R) (x : fl) : fl := match x with FR b => FR (c * b) | _ => x end.
Definition fsub (x y : fl) : fl :=
  match x, y with
  | FR a, FR b => FR (a - b)
  | FPInf, FR _ | FR _, FNInf | FPInf, FNInf => FPInf
  | FNInf, FR _ | FR _, FPInf | FNInf, FPInf => FNInf
  | _, _ => FNaN
  end.
(** np.clip (x, a_min=0, a_max=None): NaN stays NaN *)
Definition fclip0 (x : fl) : fl :=
  match x with FR r => FR (Rmax r 0) | FNInf => FR 0 | _ => x end.
(** .replace (np.NaN, 0) *)
Definition fnan0 (x : fl) : fl := match x with FNaN => FR 0 | _ => x end.

(** scipy's frozen distributions (only their parameters). *)
Inductive rv := Norm (loc scale : fl) | Lognorm (s scale : fl).

(** The summary's reserve column, the total last (base.py 127-151, mack.py 142-153). *)
Definition mack_reserves (k : mack_result) : list fl :=
  map (fun r => of_val (s_reserve r)) (c_rows (k_cl k)) ++ [of_val (snd (c_total (k_cl k)))].
(** The summary's std_error column, the total last (mack.py 134, 180). *)
Definition mack_std_errors (k : mack_result) : list fl :=
  map (fun v => fsqrt (of_val v)) (k_mse k) ++ [fsqrt (of_val (k_mse_total k))].
(** The summary's cv column before its first entry is blanked (mack.py 135, 181). *)
Definition mack_cvs (k : mack_result) : list fl :=
  map (fun p => fdiv (snd p) (fst p)) (combine (mack_reserves k) (mack_std_errors k)).

(** mack.py 184-185 *)
Definition fit_norm (reserve std_error : fl) : rv := Norm reserve std_error.
(** mack.py 189-191 *)
Definition fit_lognorm (reserve std_error : fl) : rv :=
  let s := fnan0 (fsqrt (flog (fadd 1 (fsq (fdiv std_error reserve))))) in
  let mu := fsub (fclip0 (flog reserve)) (fscal (1 / 2) (fsq s)) in
  Lognorm s (fexp mu).

(** The [rvs] of the result, by origin and for the total (mack.py 183-197). *)
Definition mack_rvs (dist : string) (k : mack_result) : res (list rv) :=
  let rs := combine (mack_reserves k) (mack_std_errors k) in
  if String.eqb dist "norm" then Ok (map (fun p => fit_norm (fst p) (snd p)) rs)
  else if String.eqb dist "lognorm" then Ok (map (fun p => fit_lognorm (fst p) (snd p)) rs)
  else Err ValueError.
