(** Several companies' tables, one below the other. *)

From Coq Require Import ZArith Qcanon List Bool.
From Verif Require Import Val Frame Spec.
Import ListNotations.
Open Scope list_scope.

(** The company reports the cell. *)
Definition reports (c : list rec) (o d : Z) : bool :=
  existsb (fun r => (r_o r =? o)%Z && (r_d r =? d)%Z) c.
(** Total of all the origin's records of a company, whatever their period. *)
Definition origin_total (c : list rec) (o : Z) : val :=
  nan_sum (map r_v (filter (fun r => (r_o r =? o)%Z) c)).
(** First development figures <= 0 count as 1. *)
Definition floored (first : bool) (x : val) : val := if first && vleb x (Fin 0%Qc) then Fin 1%Qc else x.
(** Each company reporting the cell contributes its running total plus [carry], the whole
    totals of the origin for the companies above it. *)
Fixpoint stacked (first : bool) (carry : val) (cs : list (list rec)) (o d : Z) : val :=
  match cs with
  | [] => Fin 0%Qc
  | c :: r => vadd (if reports c o d then floored first (vadd carry (running_total c o d)) else Fin 0%Qc)
                   (stacked first (vadd carry (origin_total c o)) r o d)
  end.
(** [d] is the earliest period of the table. *)
Definition earliest (l : list rec) (d : Z) : bool := forallb (fun r => (d <=? r_d r)%Z) l.
(** Every recorded loss is a positive number. *)
Definition positive_losses (c : list rec) : Prop := forall r, In r c -> exists q, r_v r = Fin q /\ (0 < q)%Qc.
