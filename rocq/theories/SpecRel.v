(** Vocabulary for C52-C57: comparing results on related triangles. *)

From Coq Require Import String QArith Qcanon ZArith List Bool.
From Verif Require Import Val Base QcLib Spec.
Import ListNotations.
Open Scope nat_scope.

(** The figures of a summary row, without its labels. *)
Definition figures (row : srow) : val * val * val * val * val :=
  (s_cldf row, s_emergence row, s_latest row, s_ultimate row, s_reserve row).

(** The summary row in a currency worth 1/c of the old one. *)
Definition in_units (c : Qc) (row : srow) : srow :=
  mkRow (s_origin row) (s_maturity row) (s_cldf row) (s_emergence row)
    (vmul (Fin c) (s_latest row)) (vmul (Fin c) (s_ultimate row)) (vmul (Fin c) (s_reserve row)).

(** Two sets of observations that agree except for the first (only) one of the
    youngest origin. *)
Definition same_but_youngest (n : nat) (C C' : nat -> nat -> Qc) : Prop :=
  forall i j, i + j < n -> i < n - 1 -> C' i j = C i j.

(** Cumulative losses are an amount of the origin times a pattern of the development
    period. *)
Definition multiplicative (n : nat) (C : nat -> nat -> Qc) (a b : nat -> Qc) : Prop :=
  (forall i, i < n -> (0 < a i)%Qc) /\ (forall j, j < n -> (0 < b j)%Qc) /\
  (forall i j, i + j < n -> C i j = (a i * b j)%Qc).

(** What is used of the geometric mean: it lies between the smallest and the largest
    of the (positive) values. *)
Definition mean_like (gm : list val -> val) : Prop :=
  forall (l : list Qc) (lo hi : Qc), l <> [] -> (forall x, In x l -> (0 < x)%Qc /\ (lo <= x <= hi)%Qc) ->
  exists q, gm (map Fin l) = Fin q /\ (lo <= q <= hi)%Qc.

(** No origin's estimate falls short of what is already paid. *)
Definition no_shortfall (r : cl_result) : Prop :=
  forall row, In row (c_rows r) -> exists l u s, s_latest row = Fin l /\ s_ultimate row = Fin u /\ s_reserve row = Fin s /\
    (l <= u)%Qc /\ (0 <= s)%Qc.

(** [v] is the medial average of [l]: the common value if all are equal, the mean of
    two, otherwise the mean of the values other than the minimum and the maximum (NaN
    if there are none). *)
Definition medial_of (l : list Qc) (v : val) : Prop :=
  (forall x, (forall y, In y l -> y = x) -> v = Fin x) /\
  (forall a b, l = [a; b] -> v = Fin ((a + b) / (1 + 1))%Qc) /\
  (forall lo hi, 2 < List.length l -> In lo l -> In hi l -> lo <> hi -> (forall y, In y l -> (lo <= y <= hi)%Qc) ->
     v = match filter (fun x => negb (qceqb x lo) && negb (qceqb x hi)) l with [] => NaN | i => Fin (mean i) end).
