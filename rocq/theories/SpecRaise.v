(** Vocabulary for C96: latest losses raised. *)

From Coq Require Import String QArith Qcanon ZArith List Bool.
From Verif Require Import Val A2A Base QcLib Spec.
Import ListNotations.
Open Scope nat_scope.

(** The same losses, except that losses of the latest diagonal may be higher. *)
Definition latest_raised (n : nat) (C C' : nat -> nat -> Qc) : Prop :=
  (forall i j, i + j < n - 1 -> C' i j = C i j) /\
  (forall i, i < n -> (C i (n - 1 - i)%nat <= C' i (n - 1 - i)%nat)%Qc).

(** What is used of the geometric mean: it does not fall when no value falls. *)
Definition monotone_mean (gm : list val -> val) : Prop :=
  forall (l l' : list Qc) (q q' : Qc), l <> [] -> (forall x, In x l -> (0 < x)%Qc) -> Forall2 Qcle l l' ->
  gm (map Fin l) = Fin q -> gm (map Fin l') = Fin q' -> (q <= q')%Qc.

(** The label of a medial average. *)
Definition medial_label (s : string) : Prop :=
  s = "all-medial"%string \/ exists k, s = ("medial-" ++ str_nat k)%string.

(** No two included link ratios of one development period are equal. *)
Definition no_ties (n : nat) (C : nat -> nat -> Qc) (w : nat -> nat -> bool) : Prop :=
  forall i i' j, i + S j < n -> i' + S j < n -> w i j = true -> w i' j = true -> i <> i' ->
  (C i (S j) / C i j)%Qc <> (C i' (S j) / C i' j)%Qc.

(** All figures of the second list are at least those of the first. *)
Definition not_lower (l l' : list val) : Prop :=
  exists a b, l = map Fin a /\ l' = map Fin b /\ Forall2 Qcle a b.
