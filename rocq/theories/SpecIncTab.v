(** Increments of the rows of a table of cumulative losses. *)

From Coq Require Import ZArith Qcanon List Bool.
From Verif Require Import Val Frame Spec SpecCum SpecCumTab.
Import ListNotations.
Open Scope list_scope.

(** The row's value less the value of the row above it with the same origin; the value itself if there is no such
    row or its value is missing. *)
Definition increment (l : list rec) (k : nat) : val :=
  match r_v (row l k), last (above l k) NaN with
  | Fin a, Fin b => Fin (a - b)%Qc
  | x, _ => x
  end.
(** First development increments <= 0 count as 1. *)
Definition booked_inc (l : list rec) (k : nat) : val :=
  if is_first_dev l (row l k) && vleb (increment l k) (Fin 0%Qc) then Fin 1%Qc else increment l k.
(** The sum of what is booked for the rows of one cell. *)
Definition inc_at (l : list rec) (o d : Z) : val :=
  nan_sum (map (booked_inc l) (filter (fun k => (r_o (row l k) =? o)%Z && (r_d (row l k) =? d)%Z) (seq 0 (length l)))).
