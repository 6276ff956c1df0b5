(** Model of /repo/trikit/utils.py and of the wrappers in /repo/trikit/__init__.py 16-23
    (which only bind [dataref]).  Definitions only. *)

From Coq Require Import String QArith Qcanon ZArith List Bool Ascii.
From Verif Require Import Val Frame Triangle.
Import ListNotations.
Open Scope string_scope.
Open Scope list_scope.

(** A record of the loss reserving database: the columns utils.py reads. Simplification:
    no missing names or codes. *)
Record lrow := mkL {
  l_key : string; l_grcode : Z; l_grname : string; l_origin : Z; l_dev : Z;
  l_incrd : val; l_paid : val; l_train : Z }.
(** A csv file: a table with columns origin, dev and value, or the database (which has no
    column "value"). *)
Inductive csv :=
| Plain (rows : list rec)
| Lrdb (rows : list lrow).
(** [dataref]: names to paths, in dict order; [fs]: the file system. *)
Definition refs := list (string * string).
Definition files := string -> option csv.
Definition ref_get (dr : refs) (name : string) : option string :=
  match find (fun p => String.eqb (fst p) name) dr with Some p => Some (snd p) | None => None end.

(** [pd.read_csv]. *)
Definition read_csv (fs : files) (path : string) : res csv :=
  match fs path with Some c => Ok c | None => Err FileNotFoundError end.

(** What the loaders return. *)
Inductive loaded :=
| LTable (l : list rec)     (* frame with columns origin, dev, value, index 0, 1, ... *)
| LTri (t : tobj).
(** utils.py 38-44, 140-145: [tri_type.startswith(("c", "i"))] (case sensitive), then [totri]
    with the defaults. *)
Definition starts_with (c : ascii) (s : string) : bool :=
  match s with String a _ => Ascii.eqb a c | EmptyString => false end.
Definition as_type (tri_type : option string) (l : list rec) : res loaded :=
  match tri_type with
  | None => Ok (LTable l)
  | Some t =>
      if starts_with "c" t || starts_with "i" t then
        do x <- totri (recs_frame "origin" "dev" "value" l) t "incr" "tabular" "origin" "dev" "value" ;
        Ok (LTri x)
      else Err ValueError
  end.

(** utils.py 10-46 [_load]. *)
Definition load (fs : files) (dr : refs) (dataset : string) (tri_type : option string) : res loaded :=
  match ref_get dr dataset with
  | None => Err KeyError
  | Some path =>
      do c <- read_csv fs path ;
      match c with
      | Lrdb _ => Err KeyError
      | Plain l => as_type tri_type l
      end
  end.

(** One of the three filters (utils.py 117-133): the value must occur among the records
    left so far. *)
Definition keep {A} (eqb : A -> A -> bool) (field : lrow -> A) (x : option A) (l : list lrow)
  : res (list lrow) :=
  match x with
  | None => Ok l
  | Some a =>
      if existsb (fun r => eqb (field r) a) l then Ok (filter (fun r => eqb (field r) a) l)
      else Err ValueError
  end.
(** utils.py 50-147 [_load_lrdb]. Simplification: a dataset that is not the database
    (columns missing) raises KeyError. *)
Definition load_lrdb (fs : files) (dr : refs) (tri_type : option string) (loss_type : string)
    (lob : option string) (grcode : option Z) (grname : option string) (train_only : bool) : res loaded :=
  if negb (starts_with "p" loss_type || starts_with "i" loss_type) then Err ValueError else
  let loss := if starts "i" loss_type then l_incrd else l_paid in
  match ref_get dr "lrdb" with
  | None => Err KeyError
  | Some path =>
      do c <- read_csv fs path ;
      match c with
      | Plain _ => Err KeyError
      | Lrdb rows =>
          do l1 <- keep String.eqb l_key lob rows ;
          do l2 <- keep Z.eqb l_grcode grcode l1 ;
          do l3 <- keep String.eqb l_grname grname l2 ;
          let l4 := if train_only then filter (fun r => (l_train r =? 1)%Z) l3 else l3 in
          as_type tri_type (map (fun r => mkrec (l_origin r) (l_dev r) (loss r)) l4)
      end
  end.

(** utils.py 153-167 [_get_datasets]. *)
Definition get_datasets (dr : refs) : list string :=
  ssort String.compare (filter (fun k => negb (String.eqb k "lrdb")) (map fst dr)).

(** [drop_duplicates], [unique]: first occurrences in order. *)
Fixpoint firsts {A} (eqb : A -> A -> bool) (l : list A) : list A :=
  match l with
  | [] => []
  | x :: r => x :: filter (fun y => negb (eqb x y)) (firsts eqb r)
  end.
(** utils.py 171-187 [_get_lrdb_lobs]. *)
Definition get_lrdb_lobs (rows : list lrow) : list string :=
  ssort String.compare (firsts String.eqb (map l_key rows)).
(** utils.py 191-209 [_get_lrdb_specs]: the rows of the frame. [sort_values] on two keys is
    a stable lexicographic sort. *)
Definition spec_of (r : lrow) : string * Z * string := (l_key r, l_grcode r, l_grname r).
Definition spec_eqb (a b : string * Z * string) : bool :=
  match a, b with
  | (k1, g1, n1), (k2, g2, n2) => String.eqb k1 k2 && Z.eqb g1 g2 && String.eqb n1 n2
  end.
Definition spec_cmp (a b : string * Z * string) : comparison :=
  match a, b with
  | (k1, g1, _), (k2, g2, _) =>
      match String.compare k1 k2 with Eq => Z.compare g1 g2 | c => c end
  end.
Definition get_lrdb_specs (rows : list lrow) : list (string * Z * string) :=
  ssort spec_cmp (firsts spec_eqb (map spec_of rows)).
