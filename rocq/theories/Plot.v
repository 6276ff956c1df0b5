(** Model of /repo/trikit/estimators/base.py 362-447 [_data_transform]: the records
    drawn by [plot ()].  Definitions only. *)

From Coq Require Import QArith Qcanon ZArith List Bool String Lia.
From Verif Require Import Val Frame Triangle A2A Base.
Import ListNotations.
Open Scope list_scope.
Open Scope nat_scope.

(** Lines 376-432: origin ([None]: "total"), dev, value, latest, rectype = "actual". *)
Record prec := mkP { p_origin : option Z; p_dev : Z; p_loss : val; p_latest : val; p_actual : bool }.
(** The columns of the result (line 446). *)
Record plotrec := mkQ {
  q_index : nat; q_origin : option Z; q_dev : Z; q_loss : val; q_reserve : val; q_actual : bool }.

(** Lines 421-424: [groupby(["dev", "rectype"]).sum()] of forecast records, relabelled
    (line 427); NaN is skipped. *)
Definition plot_totals (l : list prec) : list prec :=
  map (fun d => let g := filter (fun p => (p_dev p =? d)%Z) l in
         mkP None d (skipsum (map p_loss g)) (skipsum (map p_latest g)) false)
      (uniq Z.compare (map p_dev l)).
(** Position in a list. *)
Fixpoint position (z : Z) (l : list Z) : nat :=
  match l with [] => O | x :: r => if (x =? z)%Z then O else S (position z r) end.

(** Lines 371-447.  [cl]: the triangle's last valid row offsets ([triind]); the melted
    tables are in column order; [latest] is merged by origin (line 375). *)
Definition data_transform (m : lmat) (cl : list nat) (r : cl_result) : res (list plotrec) :=
  let nr := nrows m in let nc := ncols m in
  let o_ i := nth i (m_idx m) 0%Z in let d_ j := nth j (m_cols m) 0%Z in
  let ti := triind nr cl in
  let actual i j := negb (nth j (nth i ti []) true) in
  let lat i := slookup (map (fun row => (s_origin row, s_latest row)) (c_rows r)) (o_ i) in
  do inc <- increment (map fst (c_ldfs r)) ;
  let udev := (zmax (map fst (c_ldfs r)) + inc)%Z in
  let rec (b : bool) (p : nat * nat) :=
      mkP (Some (o_ (fst p))) (d_ (snd p)) (nth (snd p) (nth (fst p) (fst (c_trisqrd r)) []) NaN) (lat (fst p)) b in
  let max_actual i := match filter (actual i) (seq 0 nc) with [] => None | l => Some (zmax (map d_ l)) end in
  let grid := flat_map (fun j => map (fun i => (i, j)) (seq 0 nr)) (seq 0 nc) in
  let act := map (rec true) (filter (fun p => actual (fst p) (snd p)) grid) in
  let pred := map (rec false) (filter (fun p => negb (actual (fst p) (snd p)) ||
                match max_actual (fst p) with Some d => (d_ (snd p) =? d)%Z | None => false end) grid) in
  let ult := map (fun i => mkP (Some (o_ i)) udev (nth i (snd (c_trisqrd r)) NaN) (lat i) false) (seq 0 nr) in
  let all := act ++ pred ++ ult ++ plot_totals pred ++ plot_totals ult in
  let origins := uniq Z.compare (flat_map (fun p => match p_origin p with Some o => [o] | None => [] end) all) in
  if (List.length origins =? 0) then Err ValueError else
  Ok (map (fun p => mkQ (match p_origin p with Some o => position o origins | None => List.length origins end)
            (p_origin p) (p_dev p) (p_loss p)
            (if p_actual p then Fin 0%Qc else vsub (p_loss p) (p_latest p)) (p_actual p)) all).
