(** What it means for a list of points to be the picture of a density, and for a line to
    show the losses of an origin (C70, C71). *)

From Coq Require Import QArith Qcanon Reals ZArith List Bool.
From Coquelicot Require Import Coquelicot.
From Verif Require Import Val Dist Curve SpecTail Spec SpecDist.
Import ListNotations.
Open Scope list_scope.
Local Open Scope R_scope.

(** The law of X has density y at x: y is the derivative there of P (X <= t). *)
Definition density_at (X : R -> R) (x y : R) : Prop :=
  exists F : R -> R, locally x (fun t => prob_le X t (F t)) /\ is_derive F x y.

(** 100 points with equally spaced, increasing abscissas from the .001 to the .999
    quantile of X, and as ordinates the (positive) density there. *)
Definition density_curve (X : R -> R) (pts : list (fl * fl)) : Prop :=
  exists (x y : nat -> R) (h : R),
    pts = map (fun j => (FR (x j), FR (y j))) (seq 0 100) /\
    0 < h /\ (forall j, (j < 100)%nat -> x j = x O + INR j * h) /\
    prob_le X (x 0%nat) (1 / 1000) /\ prob_le X (x 99%nat) (999 / 1000) /\
    forall j, (j < 100)%nat -> 0 < y j /\ density_at X (x j) (y j).

Local Close Scope R_scope.
(** The points (x, y) of a table that carry the label o (an origin, or the total). *)
Definition pts (l : list crec) : list (fl * fl) := map (fun c => (cv_x c, cv_y c)) l.
Definition oeqb (a b : option Z) : bool :=
  match a, b with Some x, Some y => (x =? y)%Z | None, None => true | _, _ => false end.
Definition points (o : option Z) (l : list crec) : list (fl * fl) :=
  pts (filter (fun c => oeqb (cv_origin c) o) l).

(** The observed losses of origin o, in development order. *)
Definition seen (ds : list Z) (f : Z -> Z -> val) (o : Z) : list (Z * val) :=
  filter (fun p => match snd p with NaN => false | _ => true end) (map (fun d => (d, f o d)) ds).
(** The development periods with an observed loss, in increasing order. *)
Definition ticks_of (os ds : list Z) (f : Z -> Z -> val) (ticks : list Z) : Prop :=
  increasing ticks /\ forall d, In d ticks <-> In d ds /\ exists o, In o os /\ f o d <> NaN.

