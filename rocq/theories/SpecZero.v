(** Vocabulary for triangles with zero losses (C68).  [C i j]: cumulative loss of the
    i-th origin at the j-th period; the link ratio of origin i and period j is
    C i (j+1) / C i j, for i + j < n - 1. *)

From Coq Require Import QArith Qcanon List.
Open Scope nat_scope.

(** 0/0. *)
Definition undefined_link (C : nat -> nat -> Qc) (i j : nat) : Prop := C i j = 0%Qc /\ C i (S j) = 0%Qc.

(** Every origin but the youngest, and every period but the last, has a defined link
    ratio. *)
Definition links_everywhere (n : nat) (C : nat -> nat -> Qc) : Prop :=
  (forall i, i < n - 1 -> exists j, i + j < n - 1 /\ ~ undefined_link C i j) /\
  (forall j, j < n - 1 -> exists i, i + j < n - 1 /\ ~ undefined_link C i j).

(** The link ratios of period j are defined for exactly the k oldest origins before the
    first one for which it is not, or for all n - 1 - j of them. *)
Definition defined_run (n : nat) (C : nat -> nat -> Qc) (j k : nat) : Prop :=
  k <= n - 1 - j /\ (forall i, i < k -> ~ undefined_link C i j) /\ (k < n - 1 - j -> undefined_link C k j).

(** b / a is positive, or infinite and positive. *)
Definition grows (a b : Qc) : Prop := (0 < b)%Qc /\ (0 <= a)%Qc \/ (b < 0)%Qc /\ (a < 0)%Qc.
