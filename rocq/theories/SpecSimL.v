(** Specification of the simulated records under any development labels (C74, C41),
    without reference to the model's functions. *)

From Coq Require Import QArith Qcanon ZArith List Bool Lia.
From Verif Require Import Val QcLib Spec Spec2 SpecSim.
Import ListNotations.
Open Scope list_scope.
Open Scope nat_scope.

(** The increment booked for period [j] of origin [i] of the completed triangle [T], when
    the periods are labelled [ds]: nothing for the first period and the increase of the
    losses for a later one, and in addition all losses up to the period labelled 1. *)
Definition booked_incr (ds : list Z) (n : nat) (T : nat -> nat -> Qc) (i j : nat) : Qc :=
  ((if (nth j ds 0 =? 1)%Z then developed n T i j else 0)
   + match j with O => 0 | S k => developed n T i j - developed n T i k end)%Qc.

(** Simulated ultimate: booked increments up to the latest diagonal, and afterwards the
    variate [V j a] drawn for each, [a] being |increment| / c, with its sign. *)
Definition booked_ultimate (ds : list Z) (n : nat) (T : nat -> nat -> Qc) (c : Qc) (V : nat -> Qc -> Qc) (i : nat) : Qc :=
  sumf 0 n (fun j => let x := booked_incr ds n T i j in
    if i + j <? n then x else (sign_ x * V j (abs_ x / c))%Qc).

(** The share of an origin's ultimate that factors [f] put at or before period [j]. *)
Definition emerged (n : nat) (f : nat -> Qc) (j : nat) : Qc := (1 / prodf j (n - 1 - j) f)%Qc.

(** The share of the ultimate the booked increments add up to: all of it without the
    part of the first period, and in addition the part up to the period labelled 1. *)
Definition booked_share (ds : list Z) (n : nat) (f : nat -> Qc) : Qc :=
  (1 - emerged n f 0 + sumf 0 n (fun j => if (nth j ds 0 =? 1)%Z then emerged n f j else 0))%Qc.
