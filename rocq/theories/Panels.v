(** The exhibits of [BaseChainLadderResult.plot] (base.py 450-582) and of
    [BootstrapChainLadderResult.hist] (bootstrap.py 1284-1408), up to what is handed to
    the drawing library.  Definitions only. *)

From Coq Require Import String QArith Qcanon ZArith List Bool.
From Verif Require Import Val QcLib Frame Triangle A2A Base Boot Quant Plot.
Import ListNotations.
Open Scope list_scope.
Open Scope nat_scope.

(** [Series.max ()]: NaN is skipped, and the result when there is nothing else. *)
Definition vmax2 (a b : val) : val :=
  match a, b with
  | NaN, x | x, NaN => x
  | Fin x, Fin y => if qcltb x y then Fin y else Fin x
  | PInf, _ | _, PInf => PInf
  | NInf, x | x, NInf => x
  end.
Definition vmax_skip (l : list val) : val := fold_right vmax2 NaN l.
(** base.py 335-359 for any maximum: NaN and the infinities select no tick. *)
Definition yticks_of (v : val) : res (list Qc) :=
  match v with Fin x => get_yticks x | _ => Err ValueError end.

(** One facet: its label, the points drawn in it (dev, loss), the ticks of its axes. *)
Record panel := mkPanel {
  n_label : option Z; n_points : list (Z * val); n_xticks : list Z; n_yticks : list Qc }.
Definition same_label (a b : option Z) : bool :=
  match a, b with Some x, Some y => (x =? y)%Z | None, None => true | _, _ => false end.
(** base.py 546-547 (and bootstrap.py 1364-1366): the labels by "origin_index". *)
Definition label_order (data : list plotrec) : list (option Z) :=
  flat_map (fun i => match find (fun q => q_index q =? i) data with
                     | Some q => [q_origin q] | None => [] end)
           (uniq Nat.compare (map q_index data)).
(** base.py 450-582.  The grid is made (line 534) and its axes are labelled, but nothing
    is mapped onto it: no call draws a line. *)
Definition base_plot (m : lmat) (cl : list nat) (r : cl_result) : res (list panel) :=
  do data <- data_transform m cl r ;
  let xt := uniq Z.compare (map q_dev data) in
  mapM (fun o =>
      do y <- yticks_of (vmax_skip (map q_loss (filter (fun q => same_label (q_origin q) o) data))) ;
      Ok (mkPanel o [] xt y))
    (label_order data).

(** [DataFrameGroupBy.median ()]: the middle order statistic, or the mean of the two. *)
Definition median (l : list Qc) : Qc :=
  let s := ssort Qccompare l in
  let n := List.length l in
  if Nat.even n then ((nth (n / 2 - 1) s 0 + nth (n / 2) s 0) / qz 2)%Qc else nth (n / 2) s 0%Qc.
Definition greatest (l : list Qc) : Qc := fold_right (fun a b => if qcltb a b then b else a) (hd 0%Qc l) l.
(** bootstrap.py 1340: negative figures become 0. *)
Definition clip0 (x : Qc) : Qc := if qcltb x 0 then 0%Qc else x.
(** bootstrap.py 1284-1408 [hist]: by origin, increasing, then the total: the reserves of
    the histogram, the position of the median line and the right end of the axis; and
    the columns of [reserve_dist] afterwards (line 1363 adds one to the result's own
    table). *)
Definition hist_panel (l : list val) : res (list Qc * Qc * Qc) :=
  match finite l with
  | Some xs => Ok (xs, clip0 (median xs), (clip0 (greatest xs) * (qz 41 / qz 40))%Qc)
  | None => Err Unmodelled
  end.
Definition hist (rs : list rrec) (columns : list string) : res (list (list Qc * Qc * Qc) * list string) :=
  let os := uniq Z.compare (map v_o rs) in
  match os with
  | [] => Err ValueError                              (* line 1362: max of no index *)
  | _ =>
      do ps <- mapM hist_panel (samples rs os) ;
      Ok (ps, if existsb (String.eqb "origin_index") columns then columns
              else columns ++ ["origin_index"%string])
  end.
(** bootstrap.py 701-710, 211-213: the columns of [reserve_dist]. *)
Definition reserve_columns : list string := ["sim"; "origin"; "latest"; "ultimate"; "reserve"]%string.
