(** Specification of a simulation whose last development factor comes from two
    simulations (C42), without reference to the model's functions. *)

From Coq Require Import QArith Qcanon ZArith List Bool Lia.
From Verif Require Import Val QcLib Spec Spec2 SpecSim.
Import ListNotations.
Open Scope list_scope.
Open Scope nat_scope.

(** A run-off triangle completed with the factors [f]. *)
Definition developed_by (n : nat) (f : nat -> Qc) (T : nat -> nat -> Qc) (i j : nat) : Qc :=
  if i + j <? n then T i j
  else (T i (n - 1 - i)%nat * prodf (n - 1 - i) (j - (n - 1 - i)) f)%Qc.

(** The simulated payments after the latest diagonal, as [future] of SpecSim.v but for
    the factors. *)
Definition future_by (n : nat) (f : nat -> Qc) (T : nat -> nat -> Qc) (c : Qc) (V : nat -> Qc -> Qc) (i : nat) : Qc :=
  sumf (n - i) i (fun j => let x := incr_of (developed_by n f T) i j in (sign_ x * V j (abs_ x / c))%Qc).

(** Factors of simulation [s], with [T s] its resampled triangle: volume weighted from
    its own triangle, but for the last one.  This is the first-period total of
    simulation [s] over the oldest origin's losses in the last but one period of the
    simulation before; 0 in the first simulation. *)
Definition leaked (n : nat) (T : nat -> nat -> nat -> Qc) (s k : nat) : Qc :=
  if k <? n - 2 then vol_factor n (T s) k
  else match s with
       | O => 0%Qc
       | S q => (sumf 0 n (fun i => T s i 0%nat) / T q 0%nat (n - 2)%nat)%Qc
       end.
