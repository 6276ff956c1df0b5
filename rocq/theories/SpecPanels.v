(** Medians, and the largest plotted loss (C72, C73). *)

From Coq Require Import QArith Qcanon ZArith List.
From Verif Require Import Val Plot.
Open Scope list_scope.

(** [x] is the largest loss among the plotted records of an origin (or of the total). *)
Definition greatest_loss (l : list plotrec) (o : option Z) (x : Qc) : Prop :=
  (exists q, In q l /\ q_origin q = o /\ q_loss q = Fin x) /\
  forall q y, In q l -> q_origin q = o -> q_loss q = Fin y -> (y <= x)%Qc.

(** At least half of the sample is at most x, and at least half is at least x. *)
Definition is_median (l : list Qc) (x : Qc) : Prop :=
  (length l <= 2 * length (filter (fun y => if Qclt_le_dec x y then false else true) l))%nat /\
  (length l <= 2 * length (filter (fun y => if Qclt_le_dec y x then false else true) l))%nat.
