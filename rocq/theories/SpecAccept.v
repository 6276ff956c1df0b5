(** Specification vocabulary for the inputs the estimators accept (C77). *)

From Coq Require Import String ZArith List.
From Verif Require Import Val Base.
Import ListNotations.

(** [sel] names one of the averages [labels], or overrides all [n - 1] factors of a
    triangle with [n] development periods. *)
Definition usable (labels : list string) (n : nat) (sel : sel_arg) : Prop :=
  match sel with
  | SelLabel s => In s labels /\ 2 < n
  | SelSeq l => List.length l = n - 1
  | SelSeries s => List.length s = n - 1 /\ 2 < n
  end.
