(** Selecting plotted records. *)

From Coq Require Import ZArith List Bool.
From Verif Require Import Plot.
Open Scope list_scope.

(** The records of one origin ([None]: the total), actual or forecast, in their order. *)
Definition same_origin (a b : option Z) : bool :=
  match a, b with Some x, Some y => Z.eqb x y | None, None => true | _, _ => false end.
Definition drawn (l : list plotrec) (o : option Z) (actual : bool) : list plotrec :=
  filter (fun p => same_origin (q_origin p) o && Bool.eqb (q_actual p) actual) l.
