(** pandas structures used by trikit: labelled columns, records, labelled
    matrices, and the DataFrame operations trikit calls on them.

    The operations model pandas 2.1.4 (pinned in /repo/requirements.txt) and not
    trikit code; each comment names the pandas call and where trikit uses it. *)

From Coq Require Import QArith Qcanon ZArith List Bool String Lia.
From Verif Require Import Val.
Import ListNotations.
Open Scope string_scope.
Open Scope list_scope.

(** ** Sorting and grouping *)

Section Sorting.
  Context {A : Type} (cmp : A -> A -> comparison).

  (** Insert into a strictly increasing list, dropping duplicates. *)
  Fixpoint uins (x : A) (l : list A) : list A :=
    match l with
    | [] => [x]
    | y :: r => match cmp x y with
                | Lt => x :: l
                | Eq => l
                | Gt => y :: uins x r
                end
    end.
  (** Sorted distinct elements: the labels of groupby/pivot results and
      [np.unique]. *)
  Definition uniq (l : list A) : list A := fold_right uins [] l.

  (** Stable insertion sort: [sort_values] / [sort_index]. *)
  Fixpoint sins (x : A) (l : list A) : list A :=
    match l with
    | [] => [x]
    | y :: r => match cmp x y with
                | Gt => y :: sins x r
                | _ => x :: l
                end
    end.
  Definition ssort (l : list A) : list A := fold_right sins [] l.
End Sorting.

Definition key := (Z * Z)%type.
(** Lexicographic order on (origin, dev). *)
Definition kcmp (a b : key) : comparison :=
  match Z.compare (fst a) (fst b) with
  | Eq => Z.compare (snd a) (snd b)
  | c => c
  end.
Definition keqb (a b : key) : bool := Z.eqb (fst a) (fst b) && Z.eqb (snd a) (snd b).

(** One record (origin, dev, value) of a tabular frame. *)
Definition rec := (key * val)%type.
Definition r_o (r : rec) : Z := fst (fst r).
Definition r_d (r : rec) : Z := snd (fst r).
Definition r_v (r : rec) : val := snd r.
Definition mkrec (o d : Z) (v : val) : rec := ((o, d), v).

(** [df.groupby([origin, dev], as_index=False).sum()], triangle.py 51. *)
Definition group_sum (l : list rec) : list rec :=
  map (fun k => (k, skipsum (map r_v (filter (fun r => keqb (fst r) k) l))))
      (uniq kcmp (map fst l)).

(** [df.sort_values(by=[origin, dev])], triangle.py 52, 355, 893, 1368. *)
Definition sort_recs (l : list rec) : list rec :=
  ssort (fun a b => kcmp (fst a) (fst b)) l.

(** [df.groupby([origin])[value].cumsum()], triangle.py 465: running total
    within each origin in row order; NaN inputs stay NaN and are skipped.
    [seen] is the part of the column already processed. *)
Fixpoint group_cumsum_from (seen l : list (Z * val)) : list val :=
  match l with
  | [] => []
  | (o, v) :: r =>
      (if isnan v then NaN
       else skipsum (map snd (filter (fun p => Z.eqb (fst p) o) (seen ++ [(o, v)]))))
      :: group_cumsum_from (seen ++ [(o, v)]) r
  end.
Definition group_cumsum (l : list (Z * val)) : list val := group_cumsum_from [] l.

(** [df.groupby([origin])["cum"].diff(periods=1)], triangle.py 1377: difference to
    the previous row of the same origin, NaN for its first row. *)
Fixpoint last_of (o : Z) (l : list (Z * val)) (d : val) : val :=
  match l with
  | [] => d
  | (o', v) :: r => last_of o r (if Z.eqb o' o then v else d)
  end.
Fixpoint group_diff_from (seen l : list (Z * val)) : list val :=
  match l with
  | [] => []
  | (o, v) :: r => vsub v (last_of o seen NaN) :: group_diff_from (seen ++ [(o, v)]) r
  end.
Definition group_diff (l : list (Z * val)) : list val := group_diff_from [] l.

(** ** Labelled matrices *)

Record lmat := mkMat { m_idx : list Z; m_cols : list Z; m_cells : list (list val) }.

(** Cell at a position. *)
Definition cell (cs : list (list val)) (i j : nat) : val := nth j (nth i cs []) NaN.

(** Matrix with [nr] rows and [nc] columns given by a function. *)
Definition mk {A} (nr nc : nat) (f : nat -> nat -> A) : list (list A) :=
  map (fun i => map (f i) (seq 0 nc)) (seq 0 nr).

Definition nrows (m : lmat) : nat := List.length (m_idx m).
Definition ncols (m : lmat) : nat := List.length (m_cols m).

(** [Index.get_loc]. *)
Fixpoint zfind (x : Z) (l : list Z) : option nat :=
  match l with
  | [] => None
  | y :: r => if Z.eqb x y then Some O else option_map S (zfind x r)
  end.

(** Cell at a label pair; [None] when a label is absent. *)
Definition cell_at (m : lmat) (o d : Z) : option val :=
  match zfind o (m_idx m), zfind d (m_cols m) with
  | Some i, Some j => Some (cell (m_cells m) i j)
  | _, _ => None
  end.

(** First record with the given key. *)
Definition rec_lookup (l : list rec) (o d : Z) : option val :=
  match find (fun r => keqb (fst r) (o, d)) l with
  | Some r => Some (r_v r)
  | None => None
  end.

(** [df.pivot(index=origin, columns=dev)], triangle.py 53.  (Duplicate keys, which
    pandas rejects, cannot occur here: the table comes from [group_sum].) *)
Definition pivot (l : list rec) : lmat :=
  let os := uniq Z.compare (map r_o l) in
  let ds := uniq Z.compare (map r_d l) in
  mkMat os ds
    (map (fun o => map (fun d => match rec_lookup l o d with
                                 | Some v => v | None => NaN end) ds) os).

(** [pd.melt(tri, id_vars=["origin"])], triangle.py 352, 891, 1356, 1363: column
    by column. *)
Definition melt (m : lmat) : list rec :=
  List.concat (map (fun jd => map (fun io => mkrec (snd io) (snd jd) (cell (m_cells m) (fst io) (fst jd)))
                             (combine (seq 0 (nrows m)) (m_idx m)))
              (combine (seq 0 (ncols m)) (m_cols m))).

(** [df[~np.isnan(df[value])]]. *)
Definition drop_nan (l : list rec) : list rec := filter (fun r => negb (isnan (r_v r))) l.

(** [Series.last_valid_index()] as a position. *)
Fixpoint last_valid (l : list val) : option nat :=
  match l with
  | [] => None
  | v :: r => match last_valid r with
              | Some k => Some (S k)
              | None => if isnan v then None else Some O
              end
  end.

Definition mrow (m : lmat) (i : nat) : list val := map (cell (m_cells m) i) (seq 0 (ncols m)).
Definition mcol (m : lmat) (j : nat) : list val :=
  map (fun i => cell (m_cells m) i j) (seq 0 (nrows m)).

(** [DataFrame.diff(axis=1)] with the first column restored, triangle.py 888-889,
    1361-1362. *)
Definition diff_cells (m : lmat) : list (list val) :=
  mk (nrows m) (ncols m) (fun i j =>
    match j with
    | O => cell (m_cells m) i O
    | S j' => vsub (cell (m_cells m) i j) (cell (m_cells m) i j')
    end).

(** ** User frames *)

(** A column holds integer labels or float values. *)
Inductive column := ZC (l : list Z) | VC (l : list val).
Definition frame := list (string * column).

Definition collen (c : column) : nat :=
  match c with ZC l => List.length l | VC l => List.length l end.

Definition fhas (f : frame) (n : string) : bool := existsb (fun p => String.eqb (fst p) n) f.
Definition fcount (f : frame) (n : string) : nat :=
  List.length (filter (fun p => String.eqb (fst p) n) f).

Fixpoint fget (f : frame) (n : string) : option column :=
  match f with
  | [] => None
  | (m, c) :: r => if String.eqb m n then Some c else fget r n
  end.

(** [df[name] = column]: overwrite in place or append. *)
Fixpoint fset (f : frame) (n : string) (c : column) : frame :=
  match f with
  | [] => [(n, c)]
  | (m, d) :: r => if String.eqb m n then (m, c) :: r else (m, d) :: fset r n c
  end.

(** [df.drop(name, axis=1)]. *)
Definition fdrop (f : frame) (n : string) : res frame :=
  if fhas f n then Ok (filter (fun p => negb (String.eqb (fst p) n)) f) else Err KeyError.

(** [df.rename({a: b}, axis=1)]: silently nothing when [a] is absent. *)
Definition frename (f : frame) (a b : string) : frame :=
  map (fun p => if String.eqb (fst p) a then (b, snd p) else p) f.

(** Typed column access: origin and dev columns must be integer columns, value
    columns numeric; a column name occurring twice is outside the model. *)
Definition fint (f : frame) (n : string) : res (list Z) :=
  if Nat.ltb 1 (fcount f n) then Err Unmodelled else
  match fget f n with
  | None => Err KeyError
  | Some (ZC l) => Ok l
  | Some (VC _) => Err Unmodelled
  end.
Definition fval (f : frame) (n : string) : res (list val) :=
  if Nat.ltb 1 (fcount f n) then Err Unmodelled else
  match fget f n with
  | None => Err KeyError
  | Some (VC l) => Ok l
  | Some (ZC l) => Ok (map vz l)
  end.

(** Rows of a table as records. *)
Definition zip_recs (os ds : list Z) (vs : list val) : list rec :=
  combine (combine os ds) vs.
(** Table with the given column names. *)
Definition recs_frame (o d v : string) (l : list rec) : frame :=
  [(o, ZC (map r_o l)); (d, ZC (map r_d l)); (v, VC (map r_v l))].
