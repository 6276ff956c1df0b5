(** Specification vocabulary for C91: how a machine's table compares with an exact one. *)

From Coq Require Import String QArith Qcanon ZArith List.
From Verif Require Import Val Base Spec SpecRound A2A.
Import ListNotations.
Open Scope string_scope.
Open Scope list_scope.
Open Scope Qc_scope.

(** The rows and total of a chain ladder result with n origins, and the ultimates, reserves
    and totals [ult], [rsv], [tult], [trsv] of the machine: the i-th ultimate is [k i]
    roundings away; a reserve one more, relative to ultimate and latest loss; totals the
    roundings of the youngest origin and n - 1 additions. *)
Definition rounded_as (u : Qc) (n : nat) (k : nat -> nat) (rows : list srow) (total : val * val * val)
    (ult rsv : nat -> Qc) (tult trsv : Qc) : Prop :=
  (forall i row, nth_error rows i = Some row -> exists U L,
     s_latest row = Fin L /\ s_ultimate row = Fin U /\ s_reserve row = Fin (U - L) /\
     close (gamma u (k i) * U) (ult i) U /\
     close (gamma u (k i + 1) * (U + L)) (rsv i) (U - L)) /\
  exists U L, total = (Fin L, Fin U, Fin (U - L)) /\
     close (gamma u (k (n - 1)%nat + (n - 1)) * U) tult U /\
     close (gamma u (k (n - 1)%nat + n) * (U + L)) trsv (U - L).

(** The rows of the average over the latest k link ratios of N (all of them for k = 0), and
    its label. *)
Definition window_rows (k N : nat) : list nat := if (k =? 0)%nat then seq 0 N else latest_rows k N.
Definition window_label (kind : string) (k : nat) : string :=
  if (k =? 0)%nat then ("all-" ++ kind)%string else (kind ++ "-" ++ str_nat k)%string.
