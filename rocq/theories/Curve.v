(** The data behind the pictures: density curves of Mack's chain ladder (mack.py
    818-834), its [plot] and [diagnostics] (866-1086) up to the columns they read, and
    the loss development lines of a triangle (triangle.py 943-1014).  Definitions only. *)

From Coq Require Import String QArith Qcanon Qreals Reals ZArith List Bool.
From Verif Require Import Val QcLib Frame Triangle A2A Base Mack Dist Infer Plot.
Import ListNotations.
Open Scope list_scope.
Local Open Scope R_scope.

(** scipy's [norm.pdf] (0, 1) *)
Definition std_pdf (x : R) : R := exp (- (x * x) / 2) / sqrt (2 * PI).
(** [rv.pdf (x)] of the frozen distributions: NaN unless the scale (and the shape) is
    positive. *)
Definition rv_pdf (d : rv) (x : fl) : fl :=
  match d, x with
  | Norm (FR loc) (FR scale), FR x =>
      if Rlt_dec 0 scale then FR (std_pdf ((x - loc) / scale) / scale) else FNaN
  | Lognorm (FR s) (FR scale), FR x =>
      if Rlt_dec 0 s then if Rlt_dec 0 scale then
        if Rlt_dec 0 x then FR (std_pdf (ln (x / scale) / s) / (s * (x / scale)) / scale) else FR 0
      else FNaN else FNaN
  | _, _ => FNaN
  end.
(** [np.linspace (lo, hi, num)], num > 1; not used with infinite ends. *)
Definition linspace (lo hi : fl) (num : nat) : list fl :=
  map (fun k => match lo, hi with
                | FR a, FR b => FR (a + INR k * ((b - a) / INR (num - 1)))
                | _, _ => FNaN end) (seq 0 num).
Definition fisnan (x : fl) : bool := match x with FNaN => true | _ => false end.

(** One point of a curve: origin ([None]: "total"), x, y. *)
Record crec := mkC { cv_origin : option Z; cv_x : fl; cv_y : fl }.
(** mack.py 826-832, one origin; the quantiles .001 and .999 are exact here. *)
Definition curve (ppf : R -> R) (o : option Z) (d : rv) : list crec :=
  map (fun x => mkC o x (rv_pdf d x))
      (linspace (rv_ppf ppf d (qz 1 / qz 1000)%Qc) (rv_ppf ppf d (qz 999 / qz 1000)%Qc) 100).
(** The index of [rvs]: the summary's. *)
Definition rv_index (k : mack_result) : list (option Z) :=
  map (fun r => Some (s_origin r)) (c_rows (k_cl k)) ++ [None].
(** mack.py 818-834 [_mack_data_transform]; line 834 drops the rows without x and y. *)
Definition mack_data_transform (ppf : R -> R) (dist : string) (k : mack_result) : res (list crec) :=
  do rvs <- mack_rvs dist k ;
  Ok (filter (fun c => negb (fisnan (cv_x c) && fisnan (cv_y c)))
        (flat_map (fun p => curve ppf (fst p) (snd p)) (combine (rv_index k) rvs))).

(** [df[name]] on a frame with the given columns. *)
Definition column (cols : list string) (name : string) : res unit :=
  if existsb (String.eqb name) cols then Ok tt else Err KeyError.
(** mack.py 866-958 [plot]: the data are those of [_data_transform] (line 907, columns:
    base.py 446), and the curves are drawn from columns "x" and "y" (line 919). *)
Definition mack_plot (m : lmat) (cl : list nat) (k : mack_result) : res unit :=
  do _ <- data_transform m cl (k_cl k) ;
  let cols := ["origin_index"; "origin"; "dev"; "loss"; "reserve"; "rectype"]%string in
  do _ <- column cols "x" ;
  column cols "y".
(** mack.py 961-1086 [diagnostics]: the density curves (line 975), then the development
    paths, melted with [var_name="dev"] (line 979) and read at "devp" (line 1019); a
    triangle without origins fails at line 1036 on the same column. *)
Definition mack_diagnostics (ppf : R -> R) (dist : string) (k : mack_result) : res unit :=
  do _ <- mack_data_transform ppf dist k ;
  let cols := ["origin"; "dev"; "value"]%string in
  column cols "devp".

Local Close Scope R_scope.
(** triangle.py 943-1012 [_combined_view]: for each origin its label and the points
    (dev, value) of its line, and the ticks of the x axis.  An origin without records is
    a KeyError ([get_group], line 967), a table without column "dev" an AttributeError
    (968). *)
Definition combined_view (t : tri) : res (list (Z * list (Z * val)) * list Z) :=
  do f <- to_tbl t true ;
  do os <- fint f "origin" ;
  do groups <- mapM (fun o =>
      if existsb (Z.eqb o) os then Ok o else Err KeyError) (m_idx (t_mat t)) ;
  do ds <- match fint f "dev" with Err KeyError => Err AttributeError | r => r end ;
  do vs <- fval f "value" ;
  let rows := combine os (combine ds vs) in
  Ok (map (fun o => (o, map snd (filter (fun r => (fst r =? o)%Z) rows))) groups, uniq Z.compare ds).
(** triangle.py 1015-1098 [_faceted_view]: one facet for each value of column "origin",
    in increasing order ([FacetGrid]), with its line and the same ticks. *)
Definition faceted_view (t : tri) : res (list (Z * list (Z * val)) * list Z) :=
  do f <- to_tbl t true ;
  do os <- fint f "origin" ;
  do ds <- fint f "dev" ;
  do vs <- fval f "value" ;
  let rows := combine os (combine ds vs) in
  Ok (map (fun o => (o, map snd (filter (fun r => (fst r =? o)%Z) rows))) (uniq Z.compare os), uniq Z.compare ds).
(** triangle.py 897-940 [plot]: [display.startswith ("f")]. *)
Definition plot_lines (t : tri) (display : string) : res (list (Z * list (Z * val)) * list Z) :=
  if String.prefix "f" display then faceted_view t else combined_view t.
