(** Sample statistics of simulated figures. *)

From Coq Require Import QArith Qcanon.
From Verif Require Import Val QcLib.
Open Scope Qc_scope.

(** Mean of [x 0, ..., x (sims - 1)]. *)
Definition sample_mean (sims : nat) (x : nat -> Qc) : Qc := sumf 0 sims x / qn sims.
(** Sample covariance, with divisor sims - 1. *)
Definition covariance (sims : nat) (x y : nat -> Qc) : Qc :=
  sumf 0 sims (fun s => (x s - sample_mean sims x) * (y s - sample_mean sims y)) / qn (sims - 1).
