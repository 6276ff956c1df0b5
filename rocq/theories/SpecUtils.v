(** Specification vocabulary for the dataset utilities. Of [Utils] only the data types are
    used. *)

From Coq Require Import String ZArith List Ascii.
From Verif Require Import Val Frame Utils.
Import ListNotations.
Open Scope string_scope.
Open Scope list_scope.

(** [s]: exactly the elements of [l] satisfying [P], in order. *)
Inductive picks {A} (P : A -> Prop) : list A -> list A -> Prop :=
| picks_nil : picks P [] []
| picks_keep x l s : P x -> picks P l s -> picks P (x :: l) (x :: s)
| picks_drop x l s : ~ P x -> picks P l s -> picks P (x :: l) s.

(** A filter argument: [None] accepts everything. *)
Definition accepts {A} (arg : option A) (x : A) : Prop :=
  match arg with None => True | Some a => x = a end.
(** The record passes the three filters. *)
Definition matching (lob : option string) (grcode : option Z) (grname : option string) (r : lrow) : Prop :=
  accepts lob (l_key r) /\ accepts grcode (l_grcode r) /\ accepts grname (l_grname r).
(** No filter was given. *)
Definition no_filter (lob : option string) (grcode : option Z) (grname : option string) : Prop :=
  lob = None /\ grcode = None /\ grname = None.
(** The loss column by its requested name. *)
Definition loss_of (loss_type : string) : lrow -> val :=
  match loss_type with String c _ => if Ascii.eqb c "p" then l_paid else l_incrd | EmptyString => l_incrd end.
(** Accepted loss types: anything beginning with a lower-case p or i. *)
Definition known_loss (loss_type : string) : Prop :=
  exists r, loss_type = String "p" r \/ loss_type = String "i" r.
(** The returned table: origin, development period and the loss column. *)
Definition table_of (loss : lrow -> val) (l : list lrow) : list rec :=
  map (fun r => mkrec (l_origin r) (l_dev r) (loss r)) l.
(** Every file but the database is a readable table. *)
Definition installed (fs : files) (dr : refs) : Prop :=
  forall name path, In (name, path) dr -> name <> "lrdb" -> exists l, fs path = Some (Plain l).
(** Order of the catalogue: by line of business, then by company code. *)
Definition by_key_code (a b : string * Z * string) : Prop :=
  let '(k1, g1, _) := a in let '(k2, g2, _) := b in
  String.compare k1 k2 = Lt \/ (k1 = k2 /\ (g1 <= g2)%Z).
