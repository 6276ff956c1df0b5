(** Specification vocabulary for the printed summaries with standard errors and quantiles
    (C87), on top of SpecPrint.v.  Only the records of a result are taken from the model. *)

From Coq Require Import String Ascii QArith Qcanon Reals ZArith List Bool.
From Verif Require Import Val Frame Triangle A2A Base Mack Dist MackSum SpecCols SpecPrint.
Import ListNotations.
Open Scope list_scope.
Open Scope nat_scope.

(** [z] is the integer nearest to the real number [x]; of two equally near ones the even
    one. *)
Definition nearest_real (x : R) (z : Z) : Prop :=
  (x - 1 / 2 <= IZR z <= x + 1 / 2)%R /\
  (IZR z = (x - 1 / 2)%R \/ IZR z = (x + 1 / 2)%R -> Z.even z = true).

(** What a cell with value [v] looks like, with [k] decimals. *)
Definition shown_real (k : nat) (v : fl) (l : list ascii) : Prop :=
  match v with
  | FNaN => l = list_ascii_of_string "NaN"
  | FPInf => l = list_ascii_of_string "inf"
  | FNInf => l = list_ascii_of_string "-inf"
  | FR x => exists z, nearest_real (x * IZR (10 ^ Z.of_nat k)) z /\
                      read_number l = Some (qz z / qz (10 ^ Z.of_nat k))%Qc
  end.
(** Whole number with separators. *)
Definition shown_whole_real (v : fl) (l : list ascii) : Prop :=
  shown_real 0 v l /\ (forall x, v = FR x -> separated l).

Definition shown_plain_real (k : nat) (v : fl) (l : list ascii) : Prop :=
  shown_real k v l /\ (forall x, v = FR x -> plain k l).

(** One row of a summary ([r]) with its quantiles ([qs]). *)
Definition range_shown (r : mrow) (qs : list fl) (txt : list ascii * list (list ascii)) : Prop :=
  match y_origin r with
  | Some o => shown_label o (fst txt)
  | None => fst txt = list_ascii_of_string "total"
  end /\
  exists mt c e l u v se cv qt, snd txt = [mt; c; e; l; u; v; se; cv] ++ qt /\
    match y_maturity r with Some z => shown_label z mt | None => mt = [] end /\
    shown_plain 5 (y_cldf r) c /\ shown_plain 5 (y_emergence r) e /\
    shown_whole (y_latest r) l /\ shown_whole (y_ultimate r) u /\ shown_whole (y_reserve r) v /\
    shown_whole_real (y_std_error r) se /\ shown_plain_real 3 (y_cv r) cv /\
    Forall2 shown_whole_real qs qt.

(** The text [head], [body] shows the summary [rows] with the quantile columns [cols]:
    every column under its name, every row in its place. *)
Definition table_shown (rows : list mrow) (cols : list (string * list fl))
    (head : list string) (body : list (list ascii * list (list ascii))) : Prop :=
  head = ["maturity"; "cldf"; "emergence"; "latest"; "ultimate"; "reserve"; "std_error"; "cv"]%string ++ map fst cols /\
  List.length body = List.length rows /\
  forall i r, nth_error rows i = Some r ->
    exists qs txt, Forall2 (fun c x => nth_error (snd c) i = Some x) cols qs /\
                   nth_error body i = Some txt /\ range_shown r qs txt.
