(** What is booked for a row of a table of cumulative losses. *)

From Coq Require Import ZArith Qcanon List Bool.
From Verif Require Import Val Frame Spec SpecCum.
Import ListNotations.
Open Scope list_scope.

(** The sum of the numbers of a list that are immediately followed by a missing value. *)
Fixpoint carried (vs : list val) : Qc :=
  match vs with
  | Fin q :: ((NaN :: _) as r) => (q + carried r)%Qc
  | _ :: r => carried r
  | [] => 0%Qc
  end.
(** The values of the rows above row [k] with the same origin, in the order of the table. *)
Definition above (l : list rec) (k : nat) : list val :=
  map r_v (filter (fun r => (r_o r =? r_o (row l k))%Z) (firstn k l)).
(** A number is raised by what its origin lost at missing values further up. *)
Definition reading (l : list rec) (k : nat) : val :=
  match r_v (row l k) with Fin q => Fin (q + carried (above l k))%Qc | x => x end.
(** First development readings <= 0 count as 1. *)
Definition read (l : list rec) (k : nat) : val :=
  if is_first_dev l (row l k) && vleb (reading l k) (Fin 0%Qc) then Fin 1%Qc else reading l k.
(** The sum of what is read for the rows of one cell; a missing value counts as zero. *)
Definition read_at (l : list rec) (o d : Z) : val :=
  nan_sum (map (read l) (filter (fun k => (r_o (row l k) =? o)%Z && (r_d (row l k) =? d)%Z) (seq 0 (length l)))).
