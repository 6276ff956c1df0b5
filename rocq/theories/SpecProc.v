(** Specification of the process stage of the bootstrap (C99), without reference to the
    model's functions: several runs that differ in their gamma variates only, weighted
    with the probabilities of these variates. *)

From Coq Require Import QArith Qcanon ZArith List Bool Lia.
From Verif Require Import Val QcLib Spec Spec2 SpecSim SpecAny.
Import ListNotations.
Open Scope list_scope.
Open Scope nat_scope.

(** Average over [N] runs with probabilities [p]. *)
Definition average (N : nat) (p X : nat -> Qc) : Qc := sumf 0 N (fun r => p r * X r)%Qc.

(** The variates [G r s i j] of the cells after the latest diagonal have the mean and the
    variance of a gamma variate of shape [a s i j] and scale [c], and those of one origin
    in one simulation are uncorrelated. *)
Definition gamma_moments (N : nat) (p : nat -> Qc) (sims n : nat) (c : Qc) (a : nat -> nat -> nat -> Qc)
    (G : nat -> nat -> nat -> nat -> Qc) : Prop :=
  forall s i j, s < sims -> i < n -> n - i <= j < n ->
    average N p (fun r => G r s i j) = (a s i j * c)%Qc /\
    average N p (fun r => (G r s i j - a s i j * c) * (G r s i j - a s i j * c))%Qc = (a s i j * (c * c))%Qc /\
    forall k, n - i <= k < n -> k <> j ->
      average N p (fun r => (G r s i j - a s i j * c) * (G r s i k - a s i k * c))%Qc = 0%Qc.
