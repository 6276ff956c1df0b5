(** Specification of one simulated triangle (C74), without reference to the model's
    functions. *)

From Coq Require Import QArith Qcanon ZArith List Bool Lia.
From Verif Require Import Val QcLib Spec Spec2.
Import ListNotations.
Open Scope list_scope.
Open Scope nat_scope.

(** Resampled cumulative losses: every fitted increment [M i k] is replaced by
    [M i k + E i k * root (M i k)]. *)
Definition resampled (M E : nat -> nat -> Qc) (root : Qc -> Qc) (i j : nat) : Qc :=
  sumf 0 (S j) (fun k => (M i k + E i k * root (M i k))%Qc).

(** A run-off triangle [S] completed by the chain ladder with its own volume-weighted
    factors. *)
Definition developed (n : nat) (T : nat -> nat -> Qc) (i j : nat) : Qc :=
  if i + j <? n then T i j
  else (T i (n - 1 - i)%nat * prodf (n - 1 - i) (j - (n - 1 - i)) (vol_factor n T))%Qc.

(** Forecast increment of origin [i] in period [j]. *)
Definition forecast (n : nat) (T : nat -> nat -> Qc) (i j : nat) : Qc := incr_of (developed n T) i j.

Definition sign_ (x : Qc) : Qc := if qcltb 0 x then 1%Qc else (- (1))%Qc.

(** Simulated payments after the latest diagonal: each forecast increment replaced by
    the variate [V j a] drawn for it, where [a] is |increment| / c, with the sign of the
    increment. *)
Definition future (n : nat) (T : nat -> nat -> Qc) (c : Qc) (V : nat -> Qc -> Qc) (i : nat) : Qc :=
  sumf (n - i) i (fun j => (sign_ (forecast n T i j) * V j (abs_ (forecast n T i j) / c))%Qc).

(** Simulated losses of origin [i] paid up to period [j]: the resampled losses up to
    the latest diagonal, with the variates drawn afterwards added (C75). *)
Definition paid (n : nat) (T : nat -> nat -> Qc) (c : Qc) (V : nat -> Qc -> Qc) (i j : nat) : Qc :=
  if i + j <? n then T i j
  else (T i (n - 1 - i)%nat
        + sumf (n - i) (j - (n - 1 - i)) (fun k => sign_ (forecast n T i k) * V k (abs_ (forecast n T i k) / c)))%Qc.
