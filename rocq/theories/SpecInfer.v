(** Vocabulary of C61: the outputs showing quantiles, and what one entry is. *)
From Coq Require Import String QArith Qcanon Qreals Reals List.
From Verif Require Import Val Frame Mack Dist Infer.
Import ListNotations.
Open Scope list_scope.
Local Open Scope R_scope.

(** The entry for quantile [x]: [lo] at 0, infinity at 1, [entry x] between. *)
Definition entry_of (lo : fl) (entry : R -> R) (x : Qc) : fl :=
  if qceqb x 0 then lo else if qceqb x 1 then FPInf else FR (entry (Q2R (this x))).

(** Either output: [get_quantiles (q)], or the summary of a run with [q, two_sided]
    (there not for the oldest origin). *)
Definition shown_by (ppf : R -> R) (dist : string) (k : mack_result) (q : list val) (two : bool) (i : nat)
    (cols : list (string * list fl)) : Prop :=
  (two = false /\ mack_quantile_table ppf dist k q = Ok cols) \/
  ((0 < i)%nat /\ mack_summary_table ppf dist k q two = Ok cols).
