(** Specification vocabulary for rounded arithmetic.  Nothing here refers to the model of
    the code. *)

From Coq Require Import QArith Qcanon ZArith.
From Verif Require Import Val.
Open Scope Qc_scope.

(** [rd x] is the machine number an operation with the exact result [x] returns: its
    relative error is at most [u] (binary64 without overflow and underflow: 2^-53). *)
Definition rounding (u : Qc) (rd : Qc -> Qc) : Prop :=
  0 <= u /\ u < 1 /\ forall x, (0 <= x -> x * (1 - u) <= rd x <= x * (1 + u)) /\
                               (x <= 0 -> x * (1 + u) <= rd x <= x * (1 - u)).
(** The error of [k] roundings. *)
Definition gamma (u : Qc) (k : nat) : Qc := qn k * u / (1 - qn k * u).
(** [a] and [b] differ by at most [e]. *)
Definition close (e a b : Qc) : Prop := a - b <= e /\ b - a <= e.
(** [y] is at most [k] roundings away from [x >= 0]. *)
Definition roundings (u : Qc) (k : nat) (x y : Qc) : Prop := x * (1 - u) ^ k <= y /\ y * (1 - u) ^ k <= x.
