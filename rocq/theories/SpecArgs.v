(** The texts accepted as arguments. *)

From Coq Require Import String Ascii List ZArith.
From Verif Require Import A2A.
Import ListNotations.
Open Scope string_scope.
Open Scope list_scope.

(** The blanks of Python (ASCII). *)
Definition blank (c : ascii) : Prop := In (nat_of_ascii c) [32; 9; 10; 11; 12; 13; 28; 29; 30; 31].
(** "gamma" in upper or lower case letters, blanks around it. *)
Definition says_gamma (s : string) : Prop :=
  exists a w z, list_ascii_of_string s = a ++ w ++ z /\ (forall c, In c a \/ In c z -> blank c) /\
    Forall2 (fun c l => In c l) w
      [["g"%char; "G"%char]; ["a"%char; "A"%char]; ["m"%char; "M"%char]; ["m"%char; "M"%char]; ["a"%char; "A"%char]].

(** The names of the averages of a triangle of [n] origins. *)
Definition average_name (n : nat) (s : string) : Prop :=
  exists kind, In kind ["simple"; "geometric"; "medial"; "weighted"] /\
    (s = ("all-" ++ kind)%string \/ exists k, 1 <= k <= n - 2 /\ s = (kind ++ "-" ++ str_nat k)%string).
