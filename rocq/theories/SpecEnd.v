(** Specification of a complete run-off table, for the properties that start from the
    user's records (C51-). *)

From Coq Require Import QArith Qcanon ZArith String List Bool Lia Sorting.Sorted.
From Verif Require Import Val Frame QcLib Spec.
Import ListNotations.
Open Scope list_scope.
Open Scope nat_scope.

(** [l] is the table of n origins [os] and n development periods [ds] in which origin i
    has exactly one record, of value [X i j], at each of its first n - i periods; the
    rows of an origin are in development order (the origins may be mixed). *)
Definition runoff_table (l : list rec) (os ds : list Z) (n : nat) (X : nat -> nat -> Qc) : Prop :=
  increasing os /\ increasing ds /\ length os = n /\ length ds = n /\ dev_sorted l /\
  (forall r, In r l <-> exists i j, i + j < n /\ r = mkrec (nth i os 0%Z) (nth j ds 0%Z) (Fin (X i j))).

(** The origin's losses up to period j. *)
Definition paid_to (X : nat -> nat -> Qc) (i j : nat) : Qc := sumf 0 (S j) (X i).
