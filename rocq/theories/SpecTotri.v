(** How option texts are read (C69). *)

From Coq Require Import String Ascii List.
From Verif Require Import SpecArgs.
Import ListNotations.

(** The text's first character is one of [l]. *)
Definition opens (l : list ascii) (s : string) : Prop := exists c r, s = String c r /\ In c l.
(** The first character that is no blank is one of [l]. *)
Definition opens_trimmed (l : list ascii) (s : string) : Prop :=
  exists a r, s = append a r /\ (forall c, In c (list_ascii_of_string a) -> blank c) /\ opens l r.
