(** Model of /repo/trikit/estimators/bootstrap.py 989-1085 and 1200-1203: the records
    drawn by [plot ()] of a bootstrap result.  Definitions only. *)

From Coq Require Import String QArith Qcanon ZArith List Bool Lia.
From Verif Require Import Val QcLib Frame Triangle A2A Base Boot Quant Plot Sims.
Import ListNotations.
Open Scope string_scope.
Open Scope list_scope.
Open Scope nat_scope.

(** pandas [groupby.quantile] (linear) of one group: NaN is skipped, a group without
    numbers gives NaN; infinities are outside the model. *)
Definition group_quantile (l : list val) (q : Qc) : res val :=
  match finite (filter (fun v => negb (isnan v)) l) with
  | None => Err Unmodelled
  | Some [] => Ok NaN
  | Some xs => do v <- percentile Linear xs q ; Ok (Fin v)
  end.

(** Lines 1037-1085 [_get_quantiles_by_devp].  [udev]: the period following the last
    one, under which the records of the largest period are repeated (lines 1052-1056).
    The result is only looked up by (origin, dev); it is listed in key order.  The rows for "total" (lines 1057-1062, 1065-1067) are left out,
    since line 1003 drops them.  [method_kw]: whether [groupby.quantile] has a keyword
    [method] (lines 1071-1077); it has none in pandas 2.1.4. *)
Definition sim_rows (udev : Z) (tab : list sdrec) : list ((Z * Z) * val) :=
  map (fun r => ((d_o r, d_d r), d_ultimate r)) tab
  ++ map (fun r => ((d_o r, udev), d_ultimate r)) (filter (fun r => (d_d r =? zmax (map d_d tab))%Z) tab).
Definition quantiles_by_devp (method_kw : bool) (tab : list sdrec) (ldf_index : list Z) (qtls : list Qc)
  : res (list ((Z * Z) * list val)) :=
  do inc <- increment ldf_index ;
  let rows := sim_rows (zmax ldf_index + inc)%Z tab in
  if negb method_kw && negb (List.length qtls =? 0) then Err TypeError else
  mapM (fun k => do vs <- mapM (group_quantile (map snd (filter (fun r => keqb (fst r) k) rows))) qtls ;
                 Ok (k, vs)) (uniq kcmp (map fst rows)).

(** One drawn record: origin, period, line (rectype or quantile header), loss. *)
Record bandrec := mkB { e_origin : Z; e_dev : Z; e_line : string; e_loss : val }.

(** Lines 989-1034 [_bs_data_transform].  Simplifications: the three blocks are kept one
    after the other (line 1034 interleaves them by index; every line of the plot takes
    its own records only), equal headers (column name clashes) are outside the model. *)
Definition bs_data_transform (method_kw : bool) (m : lmat) (cl : list nat) (r : cl_result) (tab : list sdrec)
    (qtls : list Qc) (hdrs : list string) : res (list bandrec) :=
  do l0 <- data_transform m cl r ;
  let data := flat_map (fun p => match q_origin p with Some o => [(o, p)] | None => [] end) l0 in
  do qt <- quantiles_by_devp method_kw tab (map fst (c_ldfs r)) qtls ;
  do inc <- increment (map fst (c_ldfs r)) ;
  if (List.length hdrs =? 0) then Err IndexError else
  if negb (List.length (uniq String.compare hdrs) =? List.length hdrs) then Err Unmodelled else
  let ff p := if q_actual (snd p) then (zmax (map (fun p => q_dev (snd p)) data) + inc)%Z else q_dev (snd p) in
  let minf o := zmin (map ff (filter (fun p => (fst p =? o)%Z) data)) in
  let quantile k p :=
      if q_actual (snd p) then NaN
      else if (minf (fst p) =? q_dev (snd p))%Z then q_loss (snd p)
      else match find (fun e => keqb (fst e) (fst p, q_dev (snd p))) qt with
           | Some e => nth k (snd e) NaN
           | None => NaN
           end in
  let k1 := List.length hdrs - 1 in
  Ok (map (fun p => mkB (fst p) (q_dev (snd p)) (if q_actual (snd p) then "actual" else "forecast") (q_loss (snd p))) data
      ++ map (fun p => mkB (fst p) (q_dev (snd p)) (nth 0 hdrs "") (quantile 0 p)) data
      ++ map (fun p => mkB (fst p) (q_dev (snd p)) (nth k1 hdrs "") (quantile k1 p)) data).

(** Lines 1202-1203 of [plot]: the quantiles and the records without missing losses.
    [two_sided_kw]: whether the result's [_qtls_formatter] (base.py 660) has the keyword
    [two_sided] it is called with; it has not. *)
Definition boot_plot (two_sided_kw method_kw : bool) (m : lmat) (cl : list nat) (r : cl_result) (tab : list sdrec)
    (q : list val) : res (list bandrec) :=
  if negb two_sided_kw then Err TypeError else
  do f <- qtls_formatter q true ;
  do l <- bs_data_transform method_kw m cl r tab (fst f) (snd f) ;
  Ok (filter (fun e => negb (isnan (e_loss e))) l).
(** The program with the signatures of the pinned versions. *)
Definition boot_plot_code := boot_plot false false.
