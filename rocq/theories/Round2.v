(** Further factor rules in rounded arithmetic: triangle.py 578-589 and 797-856 (weighted
    and simple averages over a window of rows), mack.py 250-272 (Mack's factors), and the
    chain ladder on given factors, estimators/base.py 180-252 and 147.  Simplified like
    Round.v: every operation is followed by [rd]; multiplying by an indicator 1 and the
    powers of a cell count as rounded operations even where the machine is exact. *)

From Coq Require Import QArith Qcanon ZArith List.
From Verif Require Import Val Round.
Import ListNotations.
Open Scope list_scope.
Open Scope Qc_scope.

Section Rounded.
  Variable rd : Qc -> Qc.

  (** triangle.py 813-831: weighted average over the rows [rows]. *)
  Definition rd_weighted (C : nat -> nat -> Qc) (rows : list nat) (j : nat) (v : Qc) : Prop :=
    exists a b, summed rd (map (fun i => C i (S j)) rows) a /\
                summed rd (map (fun i => C i j) rows) b /\ v = rd (a / b).

  (** triangle.py 587: a link ratio. *)
  Definition rd_link (C : nat -> nat -> Qc) (i j : nat) : Qc := rd (C i (S j) / C i j).

  (** triangle.py 803, 502-520: simple average of the link ratios with indicator 1. *)
  Definition rd_simple (C : nat -> nat -> Qc) (rows : list nat) (j : nat) (v : Qc) : Prop :=
    exists s, summed rd (map (fun i => rd (rd_link C i j * 1)) rows) s /\
              v = rd (s / qn (List.length rows)).

  (** [C**alpha], mack.py 269. *)
  Fixpoint rd_pow (x : Qc) (al : nat) : Qc :=
    match al with
    | O => 1
    | S al' => rd (x * rd_pow x al')
    end.

  (** mack.py 268-269; rows of weight 0 are NaN and skipped. *)
  Definition rd_mack (C W : nat -> nat -> Qc) (al : nat) (rows : list nat) (j : nat) (v : Qc) : Prop :=
    exists a b, summed rd (map (fun i => rd (rd (rd_link C i j * W i j) * rd_pow (C i j) al)) rows) a /\
                summed rd (map (fun i => rd (W i j * rd_pow (C i j) al)) rows) b /\ v = rd (a / b).

  (** base.py 180-252, 147 on the factors [f]. *)
  Definition rd_ladder (n : nat) (C : nat -> nat -> Qc) (f : nat -> Qc)
      (ult rsv : nat -> Qc) (tult trsv : Qc) : Prop :=
    (forall i, (i < n)%nat ->
       ult i = rd (C i (n - 1 - i)%nat * rd_cldf rd f (n - 1 - i) i) /\
       rsv i = rd (ult i - C i (n - 1 - i)%nat)) /\
    summed rd (map ult (seq 0 n)) tult /\ summed rd (map rsv (seq 0 n)) trsv.
End Rounded.
