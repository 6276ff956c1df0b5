(** What the cumulative constructor books for a row of a table. *)

From Coq Require Import ZArith Qcanon List Bool.
From Verif Require Import Val Frame Spec.
Import ListNotations.
Open Scope list_scope.

(** Row [k] of the table. *)
Definition row (l : list rec) (k : nat) : rec := nth k l ((0, 0)%Z, NaN).
(** Total of the row's origin over the rows up to and including row [k], in the order of
    the table; missing if the row's own value is. *)
Definition row_total (l : list rec) (k : nat) : val :=
  if isnan (r_v (row l k)) then NaN
  else nan_sum (map r_v (filter (fun r => (r_o r =? r_o (row l k))%Z) (firstn (S k) l))).
(** First development totals <= 0 count as 1. *)
Definition booked (l : list rec) (k : nat) : val :=
  if is_first_dev l (row l k) && vleb (row_total l k) (Fin 0%Qc) then Fin 1%Qc else row_total l k.
(** The sum of what is booked for the rows of one cell. *)
Definition booked_at (l : list rec) (o d : Z) : val :=
  nan_sum (map (booked l) (filter (fun k => (r_o (row l k) =? o)%Z && (r_d (row l k) =? d)%Z) (seq 0 (length l)))).

(** Going back from period [d] along origin [o], a period below the last observed row of
    its column is met before a recorded cell and before the first period. *)
Definition cut_off (l : list rec) (o d : Z) : Prop :=
  exists d', In d' (map r_d l) /\ (d' <= d)%Z /\ ~ first_dev l d' /\ ~ is_actual l o d' /\
    forall e, (d' <= e <= d)%Z -> ~ recorded l o e.
