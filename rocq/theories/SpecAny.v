(** Specification of the simulated records of any run-off triangle (C98), without
    reference to the model's functions.  [None]: a missing value. *)

From Coq Require Import QArith Qcanon ZArith List Bool Lia.
From Verif Require Import Val QcLib Spec Spec2 SpecSim.
Import ListNotations.
Open Scope list_scope.
Open Scope nat_scope.

(** The development periods at which resampled losses exist: the first one, and those
    reached with a factor of at least 1. *)
Definition alive (n : nat) (C : nat -> nat -> Qc) (k : nat) : bool :=
  match k with O => true | S p => qcleb 1 (vol_factor n C p) end.

(** Resampled losses: the resampled increments of these periods, accumulated. *)
Definition resampled_at (keep : nat -> bool) (M E : nat -> nat -> Qc) (root : Qc -> Qc) (i j : nat) : Qc :=
  sumf 0 (S j) (fun k => if keep k then (M i k + E i k * root (M i k))%Qc else 0%Qc).

Definition ratio (a b : Qc) : option Qc := if qceqb b 0 then None else Some (a / b)%Qc.
Definition or_ (d : Qc) (o : option Qc) : Qc := match o with Some x => x | None => d end.

(** Factors of simulation [s], with [T q] the resampled losses of simulation [q]: from a
    period with losses to the next such period; from the last such period, the
    first-period total over a total of the simulation before. *)
Definition factor (n : nat) (keep : nat -> bool) (T : nat -> nat -> nat -> Qc) (s k : nat) : option Qc :=
  if keep k then
    match find keep (seq (S k) (n - 1 - k)) with
    | Some k' => ratio (sumf 0 (n - k') (fun i => T s i k')) (sumf 0 (n - 1 - k) (fun i => T s i k))
    | None => match s with
              | O => None
              | S q => ratio (sumf 0 n (fun i => T s i 0)) (sumf 0 (n - 1 - k) (fun i => T q i k))
              end
    end
  else None.

(** Cumulative losses of origin [i] before process error, [T] its simulation's
    resampled losses and [f] its factors.  Oldest origin: as resampled.  Any other: as
    resampled before the latest period; from there on 0 if the latest resampled loss is
    missing, else the latest loss developed with the factors that exist, but 0 in the
    period after one without a factor. *)
Definition path (n : nat) (keep : nat -> bool) (f : nat -> option Qc) (T : nat -> nat -> Qc) (i j : nat) : option Qc :=
  let l := n - 1 - i in
  let seen := if keep j then Some (T i j) else None in
  if i =? 0 then seen
  else if j <? l then seen
  else if negb (keep l) then Some 0%Qc
  else if j =? l then seen
  else match f (j - 1) with
       | None => Some 0%Qc
       | Some _ => Some (T i l * prodf l (j - l) (fun k => or_ 1 (f k)))%Qc
       end.

(** The increment booked in period [j] of a path: the difference to the period before
    (0 without a value there), and the loss itself if the period is labelled 1. *)
Definition step (ds : list Z) (p : nat -> option Qc) (j : nat) : option Qc :=
  match p j with
  | None => None
  | Some a => Some ((if (nth j ds 0 =? 1)%Z then a else 0) +
                    match j with
                    | O => 0
                    | S h => match p h with Some b => a - b | None => 0 end
                    end)%Qc
  end.

(** Process error: after the latest period an increment x becomes a variate of shape
    |x| / c with the sign of x; then everything is added up. *)
Definition booked (n : nat) (ds : list Z) (p : nat -> option Qc) (c : Qc) (V : nat -> Qc -> Qc) (i j : nat) : Qc :=
  let x := or_ 0 (step ds p j) in
  if i + j <? n then x else (sign_ x * V j (abs_ x / c))%Qc.
Definition total (n : nat) (ds : list Z) (p : nat -> option Qc) (c : Qc) (V : nat -> Qc -> Qc) (i : nat) : Qc :=
  sumf 0 n (booked n ds p c V i).

(** The running total up to period [j]. *)
Definition running (n : nat) (ds : list Z) (p : nat -> option Qc) (c : Qc) (V : nat -> Qc -> Qc) (i j : nat) : Qc :=
  sumf 0 (S j) (booked n ds p c V i).

Definition known (o : option Qc) : val := match o with Some x => Fin x | None => NaN end.
