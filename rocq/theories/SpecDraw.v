(** Specification of the resampling stage of the bootstrap (C101), without reference to
    the model's functions: several runs that differ in the residuals drawn, weighted with
    the probabilities of the draws ([average] in SpecProc.v). *)

From Coq Require Import QArith Qcanon ZArith List Bool Lia.
From Verif Require Import Val QcLib Spec Spec2 SpecSim SpecAny SpecProc.
Import ListNotations.
Open Scope list_scope.
Open Scope nat_scope.

(** The residuals [E r s i j] drawn for the observed cells have mean [mu] and mean square
    [ms], and those of one origin in one simulation are uncorrelated. *)
Definition draw_moments (N : nat) (p : nat -> Qc) (sims n : nat) (mu ms : Qc) (E : nat -> nat -> nat -> nat -> Qc) : Prop :=
  forall s i j, s < sims -> i + j < n ->
    average N p (fun r => E r s i j) = mu /\
    average N p (fun r => E r s i j * E r s i j)%Qc = ms /\
    forall k, i + k < n -> k <> j -> average N p (fun r => E r s i j * E r s i k)%Qc = (mu * mu)%Qc.

(** Mean of a list of residuals. *)
Definition mean_of (l : list Qc) : Qc := (qsum l / qz (Z.of_nat (List.length l)))%Qc.
