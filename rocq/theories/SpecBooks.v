(** Vocabulary for C88: the estimates of two books of business and of both together. *)

From Coq Require Import String QArith Qcanon ZArith List Bool.
From Verif Require Import Val Base QcLib Spec.
Import ListNotations.
Open Scope nat_scope.

(** Entry by entry. *)
Definition plus_each (a b : list val) : list val := map (fun p => vadd (fst p) (snd p)) (combine a b).

(** Between two numbers, whichever is the smaller. *)
Definition between (a b x : val) : Prop :=
  exists p q y, a = Fin p /\ b = Fin q /\ x = Fin y /\ ((p <= y /\ y <= q)%Qc \/ (q <= y /\ y <= p)%Qc).

Definition factors_of (r : cl_result) : list val := map snd (c_ldfs r).

(** [r] are the estimates of two books together, [r1] and [r2] those of each book:
    - every factor of [r] lies between the two books' factors;
    - the latest losses add up;
    - books with the same factors share them with the whole, and their ultimates and
      reserves, by origin and in total, add up;
    - if the second book develops at least as much as the first in every period, each
      ultimate of the whole lies between the joint latest loss developed like the first
      book and developed like the second. *)
Definition combines (n : nat) (r1 r2 r : cl_result) : Prop :=
  (forall j, j < n -> between (nth j (factors_of r1) NaN) (nth j (factors_of r2) NaN) (nth j (factors_of r) NaN)) /\
  map s_latest (c_rows r) = plus_each (map s_latest (c_rows r1)) (map s_latest (c_rows r2)) /\
  (factors_of r1 = factors_of r2 ->
     factors_of r = factors_of r1 /\
     map s_ultimate (c_rows r) = plus_each (map s_ultimate (c_rows r1)) (map s_ultimate (c_rows r2)) /\
     map s_reserve (c_rows r) = plus_each (map s_reserve (c_rows r1)) (map s_reserve (c_rows r2)) /\
     snd (c_total r) = vadd (snd (c_total r1)) (snd (c_total r2)) /\
     snd (fst (c_total r)) = vadd (snd (fst (c_total r1))) (snd (fst (c_total r2)))) /\
  ((forall j, j < n -> exists p q, nth j (factors_of r1) NaN = Fin p /\ nth j (factors_of r2) NaN = Fin q /\ (p <= q)%Qc) ->
   forall i, i < n -> exists l c1 c2 u,
     nth i (map s_latest (c_rows r)) NaN = Fin l /\ nth i (map s_cldf (c_rows r1)) NaN = Fin c1 /\
     nth i (map s_cldf (c_rows r2)) NaN = Fin c2 /\ nth i (map s_ultimate (c_rows r)) NaN = Fin u /\
     (l * c1 <= u /\ u <= l * c2)%Qc).
