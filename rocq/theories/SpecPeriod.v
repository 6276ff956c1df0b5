(** Vocabulary for C89: the losses of every development period restated. *)

From Coq Require Import String QArith Qcanon ZArith List Bool.
From Verif Require Import Val Base QcLib Spec.
Import ListNotations.
Open Scope nat_scope.

(** What is used of the geometric mean: the mean of positive values multiplied by c > 0
    is c times their mean. *)
Definition homogeneous_mean (gm : list val -> val) : Prop :=
  forall (l : list Qc) (c q : Qc), (0 < c)%Qc -> l <> [] -> (forall x, In x l -> (0 < x)%Qc) ->
  gm (map Fin l) = Fin q -> gm (map Fin (map (Qcmult c) l)) = Fin (c * q)%Qc.

(** [r'] is [r] with the losses of the j-th period multiplied by [g j]: the factor from
    one period to the next by the ratio of the two, the tail factor not; an origin's
    latest loss by its period's factor; every ultimate by the factor of the last period. *)
Definition restates (n : nat) (g : nat -> Qc) (r r' : cl_result) : Prop :=
  (forall j, j < n - 1 -> nth j (map snd (c_ldfs r')) NaN = vmul (Fin (g (S j) / g j)%Qc) (nth j (map snd (c_ldfs r)) NaN)) /\
  nth (n - 1) (map snd (c_ldfs r')) NaN = nth (n - 1) (map snd (c_ldfs r)) NaN /\
  (forall i, i < n -> nth i (map s_latest (c_rows r')) NaN = vmul (Fin (g (n - 1 - i)%nat)) (nth i (map s_latest (c_rows r)) NaN)) /\
  map s_ultimate (c_rows r') = map (vmul (Fin (g (n - 1)%nat))) (map s_ultimate (c_rows r)).
