(** Specification vocabulary for quantiles, percentiles and axis ticks.  Nothing here
    refers to the model of the code. *)

From Coq Require Import QArith Qcanon ZArith List Sorting.Sorted Permutation.
From Verif Require Import Val.
Import ListNotations.
Open Scope list_scope.
Open Scope Qc_scope.

(** A requested quantile is acceptable when it is a number of [0, 1]. *)
Definition in_unit (v : val) : Prop := exists x, v = Fin x /\ 0 <= x <= 1.
(** The quantiles a request stands for. *)
Definition wanted (q : list val) (two_sided : bool) (x : Qc) : Prop :=
  if two_sided then exists r, In (Fin r) q /\ (x = (1 - r) / qz 2 \/ x = (1 + r) / qz 2)
  else In (Fin x) q.
(** The sorted, duplicate-free list of the wanted quantiles. *)
Definition lists_wanted (q : list val) (two_sided : bool) (qs : list Qc) : Prop :=
  StronglySorted Qclt qs /\ forall x, In x qs <-> wanted q two_sided x.
(** Any two different wanted quantiles are more than [1e-7] apart. *)
Definition apart (q : list val) (two_sided : bool) : Prop :=
  forall x y, wanted q two_sided x -> wanted q two_sided y -> x < y -> x + 1 / qz 10000000 < y.

Definition is_min (l : list Qc) (m : Qc) : Prop := In m l /\ forall x, In x l -> m <= x.
Definition is_max (l : list Qc) (m : Qc) : Prop := In m l /\ forall x, In x l -> x <= m.
(** [s]: the order statistics of [l]. *)
Definition order_stats (l s : list Qc) : Prop := Permutation l s /\ StronglySorted Qcle s.
(** [r] is the larger of [a] and [b]. *)
Definition larger (a b r : Qc) : Prop := a <= r /\ b <= r /\ (r = a \/ r = b).
(** [x] lies strictly inside one of the ten decades 1-10, ..., 10^9-10^10. *)
Definition decade (x : Qc) : Prop :=
  exists i, (i < 10)%nat /\ qz (10 ^ Z.of_nat i) < x < qz (10 ^ (Z.of_nat i + 1)).
