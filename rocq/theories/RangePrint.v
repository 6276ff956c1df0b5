(** Model of the printed summaries of Mack's and the bootstrap chain ladder: base.py 327-331,
    585-590 and 656, mack.py 546-547, bootstrap.py 187-199 and 895-897.  Definitions only.
    As in Print.v, the text of every cell, label and header entry is modelled, the padding
    and line breaks of [DataFrame.to_string] are not. *)

From Coq Require Import String Ascii QArith Qcanon Qreals Reals ZArith List Bool.
From Verif Require Import Val Frame Triangle A2A Base Mack Diag Dist Quant Infer MackSum Boot BootSum Print.
Import ListNotations.
Open Scope list_scope.
Open Scope nat_scope.

(** Rounding of a format, half to even; standard errors are real numbers. *)
Definition round_real (x : R) : Z :=
  let f := Int_part x in
  if Rlt_dec (frac_part x) (1 / 2) then f
  else if Rlt_dec (1 / 2) (frac_part x) then (f + 1)%Z
  else if Z.even f then f else (f + 1)%Z.

(** ["{:,.0f}".format] ([sep], [k] = 0), ["{:.3f}".format] ([k] = 3). *)
Definition fixed_real (sep : bool) (k : nat) (x : R) : list ascii :=
  let p := (10 ^ Z.of_nat k)%Z in
  let n := round_real ((if Rlt_dec x 0 then - x else x) * IZR p)%R in
  (if Rlt_dec x 0 then ["-"%char] else []) ++
  (if sep then separate (znat_text (n / p)) else znat_text (n / p)) ++
  (if k =? 0 then [] else "."%char :: decimals k n).
Definition fl_text (sep : bool) (k : nat) (v : fl) : list ascii :=
  match v with
  | FNaN => list_ascii_of_string "NaN"
  | FPInf => list_ascii_of_string "inf"
  | FNInf => list_ascii_of_string "-inf"
  | FR x => fixed_real sep k x
  end.

(** [ii.endswith("%")]. *)
Definition ends_pct (h : string) : bool :=
  match rev (list_ascii_of_string h) with c :: _ => Ascii.eqb c "%" | [] => false end.

(** One printed row: label, then the columns of base.py 327-331, std_error and cv (656),
    and the quantile columns (mack.py 546-547, bootstrap.py 895-897).  [None] is the row
    "total", whose maturity is the empty text. *)
Definition label_text (o : option Z) : list ascii :=
  match o with Some z => z_text z | None => list_ascii_of_string "total" end.
Definition range_row (r : mrow) (qs : list fl) : list ascii * list (list ascii) :=
  (label_text (y_origin r),
   [match y_maturity r with Some z => z_text z | None => [] end;
    cell_text false 5 (y_cldf r); cell_text false 5 (y_emergence r);
    cell_text true 0 (y_latest r); cell_text true 0 (y_ultimate r); cell_text true 0 (y_reserve r);
    fl_text true 0 (y_std_error r); fl_text false 3 (y_cv r)] ++ map (fl_text true 0) qs).

(** The text of a summary: headers and rows.  A quantile column whose header does not end
    in "%" would be printed without a format (not modelled). *)
Definition range_text (rows : list mrow) (cols : list (string * list fl))
  : res (list string * list (list ascii * list (list ascii))) :=
  if forallb (fun c => ends_pct (fst c)) cols then
    Ok (["maturity"; "cldf"; "emergence"; "latest"; "ultimate"; "reserve"; "std_error"; "cv"]%string ++ map fst cols,
        map (fun p => range_row (snd p) (map (fun c => nth (fst p) (snd c) FNaN) cols))
            (combine (seq 0 (List.length rows)) rows))
  else Err Unmodelled.

(** [str] and [repr] of the result of mack_cl (mack.py 137-214). *)
Definition mack_text (ppf : R -> R) (dist : string) (k : mack_result) (q : list val) (two_sided : bool)
  : res (list string * list (list ascii * list (list ascii))) :=
  do cols <- mack_summary_table ppf dist k q two_sided ;
  range_text (mack_table k) cols.

(** bootstrap.py 189-206: the summary of boot_cl with all its columns.  The join on
    maturity is by label, as in base.py 137; "total": maturity "", cldf and emergence NaN. *)
Definition boot_rows (t : tri) (cl : list nat) (b : boot_result) : res (list mrow) :=
  let m := t_mat t in
  do mat <- maturity m (triind (nrows m) cl) ;
  let cd := cldfs (o_ldfs b) in
  let dev := map (fun mt => (Some mt, slookup cd mt, vdiv (Fin 1%Qc) (slookup cd mt))) mat ++ [(None, NaN, NaN)] in
  Ok (map (fun p => let '((mt, c, e), w) := p in
            mkMrow (w_origin w) mt c e (w_latest w) (w_ultimate w) (w_reserve w) (w_std_error w) (w_cv w))
          (combine dev (boot_table b))).
Definition boot_text (t : tri) (cl : list nat) (b : boot_result) (q : list val) (two_sided : bool) (method : interp)
  : res (list string * list (list ascii * list (list ascii))) :=
  do rows <- boot_rows t cl b ;
  do cols <- boot_summary_quantiles (o_reserves b) (map (fun r => fst (fst (fst r))) (o_summary b)) q two_sided method ;
  range_text rows (map (fun c => (fst c, map (fun x => FR (Q2R (this x))) (snd c))) cols).
