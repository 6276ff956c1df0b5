(** Tables with an integer origin column, an integer dev column and a numeric value column. *)

From Coq Require Import String ZArith List.
From Verif Require Import Val Frame.
Import ListNotations.

(** If the frame has these columns, they hold [n] integers, [n] integers and [n] numbers or missing values. *)
Definition numeric_columns (f : frame) (o d v : string) (n : nat) : Prop :=
  NoDup (map fst f) /\
  (forall c, In (o, c) f -> exists xs, c = ZC xs /\ length xs = n) /\
  (forall c, In (d, c) f -> exists xs, c = ZC xs /\ length xs = n) /\
  (forall c, In (v, c) f -> exists xs, c = VC xs /\ length xs = n /\ forall x, In x xs -> x <> PInf /\ x <> NInf).
(** Three different names, none of which is used internally. *)
Definition usable_names (o d v : string) : Prop :=
  o <> d /\ o <> v /\ d <> v /\
  forall x, In x [o; d; v] -> x <> "cumval"%string /\ x <> "cum"%string /\ x <> "incr"%string.
