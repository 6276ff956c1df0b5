(** Vocabulary for C86: variances estimated from the included link ratios alone. *)

From Coq Require Import QArith Qcanon ZArith List Bool.
From Verif Require Import Val QcLib Spec.
Import ListNotations.
Open Scope nat_scope.

(** The origins whose link ratio from period j to the next is observed and included. *)
Definition included (n : nat) (w : nat -> nat -> bool) (j : nat) : list nat :=
  filter (fun i => w i j) (seq 0 (n - 1 - j)).

(** Mack's estimator of the variance parameter of period j from the link ratios of the
    given origins: the weighted squared deviations from the factor over their number
    less one. *)
Definition variance_from (rows : list nat) (C : nat -> nat -> Qc) (alpha : nat) (f : nat -> Qc) (j : nat) : Qc :=
  (qsum (map (fun i => C i j ^ alpha * ((C i (S j) / C i j - f j) * (C i (S j) / C i j - f j))) rows)
   / qn (length rows - 1))%Qc.
