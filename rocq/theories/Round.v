(** The default chain ladder in rounded arithmetic: triangle.py 813-831 (weighted
    averages), estimators/base.py 180-252 and 147, with every addition, subtraction,
    multiplication and division followed by [rd].  Simplified: run-off triangles of
    numbers only; adding the initial 0 of a sum and multiplying by the initial 1 of a
    product are exact.  pandas and numpy do not fix the order of the additions of a sum:
    [summed] allows every order and bracketing. *)

From Coq Require Import QArith Qcanon ZArith List Permutation.
From Verif Require Import Val.
Import ListNotations.
Open Scope list_scope.
Open Scope Qc_scope.

Section Rounded.
  Variable rd : Qc -> Qc.

  (** A possible result of [.sum()], triangle.py 822-823, base.py 147. *)
  Inductive summed : list Qc -> Qc -> Prop :=
  | summed_one x : summed [x] x
  | summed_add a b x y : summed a x -> summed b y -> summed (a ++ b) (rd (x + y))
  | summed_perm a b x : Permutation a b -> summed a x -> summed b x.

  (** triangle.py 813-831, [duration == 0]: the sums of the rows observed in both columns. *)
  Definition rd_factor (n : nat) (C : nat -> nat -> Qc) (j : nat) (v : Qc) : Prop :=
    exists a b, summed (map (fun i => C i (S j)) (seq 0 (n - 1 - j))) a /\
                summed (map (fun i => C i j) (seq 0 (n - 1 - j))) b /\ v = rd (a / b).

  (** base.py 198 [np.cumprod(ldfs[::-1])]: the product of [f k, ..., f (k + l)], from the last. *)
  Fixpoint rd_cldf (f : nat -> Qc) (k l : nat) : Qc :=
    match l with
    | O => f k
    | S l' => rd (rd_cldf f (S k) l' * f k)
    end.

  (** base.py 221, 249, 147: ultimates, reserves and their totals, by origin. *)
  Definition rd_base_cl (n : nat) (C : nat -> nat -> Qc) (tail : Qc)
      (ult rsv : nat -> Qc) (tult trsv : Qc) : Prop :=
    exists f, (forall j, (S j < n)%nat -> rd_factor n C j (f j)) /\ f (n - 1)%nat = tail /\
      (forall i, (i < n)%nat ->
         ult i = rd (C i (n - 1 - i)%nat * rd_cldf f (n - 1 - i) i) /\
         rsv i = rd (ult i - C i (n - 1 - i)%nat)) /\
      summed (map ult (seq 0 n)) tult /\ summed (map rsv (seq 0 n)) trsv.

  (** triangle.py [cumsum] over the periods of an origin. *)
  Fixpoint rd_cum (x : nat -> Qc) (j : nat) : Qc :=
    match j with
    | O => x 0%nat
    | S j' => rd (rd_cum x j' + x j)
    end.
End Rounded.
