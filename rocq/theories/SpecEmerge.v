(** Vocabulary for C83-C85: triangles that follow or differ from one another. *)

From Coq Require Import String QArith Qcanon ZArith List Bool.
From Verif Require Import Val Base A2A QcLib Spec.
Import ListNotations.
Open Scope nat_scope.

(** One year on: [C'] holds the observations [C] of n origins, and for every one of them
    one further loss, its latest loss times the factor of its latest period. *)
Definition emerges (n : nat) (C C' : nat -> nat -> Qc) (f : nat -> Qc) : Prop :=
  (forall i j, i + j < n -> C' i j = C i j) /\
  (forall i, i < n -> C' i (n - i) = (C i (n - 1 - i)%nat * f (n - 1 - i)%nat)%Qc).

(** The inclusions of the first n origins are kept. *)
Definition kept_inclusions {A} (n : nat) (w w' : nat -> nat -> A) : Prop :=
  forall i j, i + j < n - 1 -> w' i j = w i j.

(** What is used of the geometric mean: adding the mean to the values does not move it. *)
Definition stable_mean (gm : list val -> val) : Prop :=
  forall (l : list Qc) (x : Qc), l <> [] -> gm (map Fin l) = Fin x -> gm (map Fin (l ++ [x])) = Fin x.

(** The averages of all the years. *)
Definition all_years (s : string) : Prop :=
  In s ["all-simple"; "all-geometric"; "all-medial"; "all-weighted"]%string.

(** Two sets of observations that agree from period [d] on. *)
Definition same_from (d n : nat) (C C' : nat -> nat -> Qc) : Prop :=
  forall i j, i + j < n -> d <= j -> C' i j = C i j.

(** The label of an average that weights the link ratios by volume. *)
Definition volume_weighted (s : string) : Prop :=
  s = "all-weighted"%string \/ exists k, s = ("weighted-" ++ str_nat k)%string.
