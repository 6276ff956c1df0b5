(** Random number generators as streams (C100), without reference to the model's
    functions. *)

From Coq Require Import QArith Qcanon ZArith List Bool Lia.
From Verif Require Import Val.
Import ListNotations.
Open Scope list_scope.
Open Scope nat_scope.

(** A generator is the sequence of raw numbers it still has to give. *)
Definition stream (W : Type) := nat -> W.
(** The generator after [k] numbers have been taken. *)
Definition after {W : Type} (k : nat) (g : stream W) : stream W := fun i => g (k + i).
(** Two generators that give the same numbers give the same variates. *)
Definition reads {W A : Type} (f : stream W -> A -> nat -> val) : Prop :=
  forall g g' a k, (forall i, g i = g' i) -> f g a k = f g' a k.
