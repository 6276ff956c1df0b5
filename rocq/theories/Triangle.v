(** Model of /repo/trikit/triangle.py: construction of triangles ([totri] and the
    constructors) and the properties derived from the cells.  Definitions only. *)

From Coq Require Import QArith Qcanon ZArith List Bool String Ascii Lia.
From Verif Require Import Val Frame.
Import ListNotations.
Open Scope string_scope.
Open Scope list_scope.

(** A triangle: cells plus the column names it was built with
    (triangle.py 60-64: [self.origin], [self.dev], [self.value]).  The index is
    unnamed because of [rename_axis(None)] (triangle.py 53). *)
Record tri := mkTri { t_mat : lmat; t_o : string; t_d : string; t_v : string }.

(** ** Heap of mutable frames

    Python frames are references.  A heap is a list of frames, a reference an
    index into it.  Every statement that creates a new frame allocates, every
    [df[c] = ...] writes in place. *)
Definition heap := list frame.
Definition ref := nat.
Definition hget (h : heap) (r : ref) : frame := nth r h [].
Fixpoint hset (h : heap) (r : ref) (f : frame) : heap :=
  match h, r with
  | [], _ => []
  | _ :: t, O => f :: t
  | x :: t, S r' => x :: hset t r' f
  end.
Definition halloc (h : heap) (f : frame) : heap * ref := (h ++ [f], List.length h).

(** triangle.py 43-45, 100, 104, 108: argument defaults. *)
Definition dflt (s : string) (o : option string) : string :=
  match o with None => s | Some x => x end.

(** triangle.py 80-112 [_validate] ([isinstance] check: the model only passes
    frames). *)
Definition validate (f : frame) (o d v : string) : res unit :=
  if negb (fhas f o) then Err AttributeError else
  if negb (fhas f d) then Err AttributeError else
  if negb (fhas f v) then Err AttributeError else Ok tt.

(** [data[dev].min()] of a non-empty column, triangle.py 120. *)
Fixpoint zmin (l : list Z) : Z :=
  match l with
  | [] => 0%Z
  | [x] => x
  | x :: r => Z.min x (zmin r)
  end.

(** triangle.py 115-123 [_neg_handler], the column it computes: first
    development values [<= 0] become 1 ([NaN <= 0] is false). *)
Definition neg_fix (mn : Z) (dv : Z * val) : val :=
  if Z.eqb (fst dv) mn && vleb (snd dv) (Fin 0) then Fin 1 else snd dv.
Definition neg_handler (ds : list Z) (vs : list val) : list val :=
  map (neg_fix (zmin ds)) (combine ds vs).

(** triangle.py 50-58: select, group, sort, pivot. *)
Definition build (l : list rec) : lmat := pivot (sort_recs (group_sum l)).

(** triangle.py 41-77 [_BaseTriangle.__init__] on the frame at [r].  [_neg_handler]
    assigns into the frame passed in (line 121).  An empty frame makes
    [data.apply(..., axis=1)] return a frame, whose assignment to one column
    raises ValueError.  Using one column in two roles is outside the model. *)
Definition base_ctor (h : heap) (r : ref) (o d v : string) : heap * res tri :=
  match validate (hget h r) o d v with
  | Err e => (h, Err e)
  | Ok _ =>
    if String.eqb o d || String.eqb o v || String.eqb d v then (h, Err Unmodelled) else
    match fint (hget h r) o, fint (hget h r) d, fval (hget h r) v with
    | Ok os, Ok ds, Ok vs =>
        match ds with
        | [] => (h, Err ValueError)
        | _ =>
          let vs' := neg_handler ds vs in
          (hset h r (fset (hget h r) v (VC vs')),
           Ok (mkTri (build (zip_recs os ds vs')) o d v))
        end
    | Err e, _, _ => (h, Err e)
    | _, Err e, _ => (h, Err e)
    | _, _, Err e => (h, Err e)
    end
  end.

(** triangle.py 389-393, 422-424: [IncrTriangle.__init__] passes its arguments on. *)
Definition incr_ctor (h : heap) (r : ref) (o d v : option string) : heap * res tri :=
  base_ctor h r (dflt "origin" o) (dflt "dev" d) (dflt "value" v).

(** triangle.py 462-468 [_BaseCumTriangle.__init__], reached through
    [CumTriangle.__init__] (864-866), which hands [None] on when a name is not given:
    then [groupby([None])] raises KeyError... TypeError in pandas; either way an
    exception.
    - line 465 writes column "cumval" into the frame passed in;
    - lines 466-467 make two new frames;
    - [groupby([origin])] and [[value]] raise KeyError for missing columns. *)
Definition cum_ctor (h : heap) (r : ref) (o d v : option string) : heap * res tri :=
  match o, v with
  | Some o, Some v =>
      match fint (hget h r) o, fval (hget h r) v with
      | Ok os, Ok vs =>
          let f1 := fset (hget h r) "cumval" (VC (group_cumsum (combine os vs))) in
          let h1 := hset h r f1 in
          match fdrop f1 v with
          | Err e => (h1, Err e)
          | Ok f2 =>
              let (h2, _) := halloc h1 f2 in
              let (h3, r3) := halloc h2 (frename f2 "cumval" v) in
              base_ctor h3 r3 o (dflt "dev" d) v
          end
      | Err e, _ => (h, Err e)
      | _, Err e => (h, Err e)
      end
  | _, _ => (h, Err TypeError)
  end.

(** ** Last valid indices and the actual/forecast indicator *)

(** triangle.py 178-194 [clvi], the [row_offset] column: position of the last
    non-NaN row of each column; [Index.get_loc(None)] raises KeyError. *)
Definition clvi_cells (nr nc : nat) (cs : list (list val)) : res (list nat) :=
  mapM (fun j => match last_valid (map (fun i => cell cs i j) (seq 0 nr)) with
                 | Some k => Ok k
                 | None => Err KeyError
                 end) (seq 0 nc).
Definition clvi (m : lmat) : res (list nat) := clvi_cells (nrows m) (ncols m) (m_cells m).

(** triangle.py 159-175 [rlvi], the [col_offset] column. *)
Definition rlvi (m : lmat) : res (list nat) :=
  mapM (fun i => match last_valid (mrow m i) with
                 | Some k => Ok k
                 | None => Err KeyError
                 end) (seq 0 (nrows m)).

(** triangle.py 140-156 [triind]: 1 (here [true]) strictly below the last valid row
    of the column. *)
Definition triind (nr : nat) (cl : list nat) : list (list bool) :=
  mk nr (List.length cl) (fun i j => Nat.ltb (nth j cl O) i).
Definition indc (ti : list (list bool)) (i j : nat) : bool := nth j (nth i ti []) false.

(** triangle.py 280-297 [maturity]: label of the last column with [triind = 0];
    [nonzero()[0].max()] of an empty array raises ValueError. *)
Fixpoint last_false (l : list bool) : option nat :=
  match l with
  | [] => None
  | b :: r => match last_false r with
              | Some k => Some (S k)
              | None => if b then None else Some O
              end
  end.
Definition maturity (m : lmat) (ti : list (list bool)) : res (list Z) :=
  mapM (fun row => match last_false row with
                   | Some k => Ok (nth k (m_cols m) 0%Z)
                   | None => Err ValueError
                   end) ti.

(** triangle.py 126-137 [nbr_cells]. *)
Definition nbr_cells (m : lmat) : nat :=
  List.length (filter (fun v => negb (isnan v))
                      (List.concat (map (mrow m) (seq 0 (nrows m))))).

(** triangle.py 337-356 [to_tbl]: the records, ... *)
Definition to_tbl_recs (m : lmat) (dropna : bool) : list rec :=
  sort_recs (if dropna then drop_nan (melt m) else melt m).
(** ... and the frame.  [melt(id_vars=[self.origin])] needs the renamed index
    column, which line 351 always calls "origin". *)
Definition to_tbl (t : tri) (dropna : bool) : res frame :=
  if String.eqb (t_o t) "origin"
  then Ok (recs_frame (t_o t) (t_d t) (t_v t) (to_tbl_recs (t_mat t) dropna))
  else Err KeyError.

(** triangle.py 197-217 [latest]: last valid index of each row, inner-joined with
    [to_tbl] on [[self.origin, self.dev]]; the left side always calls its second
    column "dev". *)
Definition latest_recs (m : lmat) : list rec :=
  flat_map (fun i =>
    match last_valid (mrow m i) with
    | None => []
    | Some k =>
        let kk := (nth i (m_idx m) 0%Z, nth k (m_cols m) 0%Z) in
        filter (fun r => keqb (fst r) kk) (to_tbl_recs m true)
    end) (seq 0 (nrows m)).
Definition latest (t : tri) : res (list rec) :=
  do _ <- to_tbl t true ;
  if String.eqb (t_d t) "dev" then Ok (latest_recs (t_mat t)) else Err KeyError.

(** triangle.py 220-233 [latest_by_origin], 236-249 [latest_by_devp]. *)
Definition latest_by_origin (t : tri) : res (list (Z * val)) :=
  do l <- latest t ;
  Ok (ssort (fun a b => Z.compare (fst a) (fst b)) (map (fun r => (r_o r, r_v r)) l)).
Definition latest_by_devp (t : tri) : res (list (Z * val)) :=
  do l <- latest t ;
  Ok (ssort (fun a b => Z.compare (fst a) (fst b)) (map (fun r => (r_d r, r_v r)) l)).

(** triangle.py 301-333 [diagonal]. *)
Definition diagonal (t : tri) (offset : Z) : res (list rec) :=
  let m := t_mat t in
  if (Z.of_nat (ncols m) - 1 <? Z.abs offset)%Z then Err ValueError else
  do l <- latest t ;
  let n := List.length l in
  let idx := filter (fun p => (0 <=? snd p)%Z)
               (map (fun i => (i, (Z.of_nat (n - 1 - i) + offset)%Z)) (seq 0 n)) in
  match idx with
  | [] => Err ValueError
  | _ => mapM (fun p =>
           if (snd p <? Z.of_nat (ncols m))%Z
           then Ok (mkrec (nth (fst p) (m_idx m) 0%Z)
                          (nth (Z.to_nat (snd p)) (m_cols m) 0%Z)
                          (cell (m_cells m) (fst p) (Z.to_nat (snd p))))
           else Err KeyError) idx
  end.

(** ** Conversions *)

(** triangle.py 427-435 [IncrTriangle.to_cum]. *)
Definition to_cum (t : tri) : res tri :=
  do f <- to_tbl t true ;
  let (h, r) := halloc [] f in
  snd (cum_ctor h r (Some "origin") (Some "dev") (Some "value")).

(** triangle.py 869-894 [CumTriangle.to_incr]. *)
Definition incr_recs (m : lmat) : list rec :=
  sort_recs (drop_nan (melt (mkMat (m_idx m) (m_cols m) (diff_cells m)))).
Definition to_incr (t : tri) : res tri :=
  let (h, r) := halloc [] (recs_frame "origin" "dev" "value" (incr_recs (t_mat t))) in
  snd (incr_ctor h r (Some "origin") (Some "dev") (Some "value")).

(** ** [totri] *)

(** Python [str.lower], [str.strip] and [str.startswith] of one character (ASCII). *)
Definition lower1 (c : ascii) : ascii :=
  let n := nat_of_ascii c in
  if Nat.leb 65 n && Nat.leb n 90 then ascii_of_nat (n + 32) else c.
Definition is_space (c : ascii) : bool :=
  let n := nat_of_ascii c in Nat.eqb n 32 || (Nat.leb 9 n && Nat.leb n 13)
                             || (Nat.leb 28 n && Nat.leb n 31).
(** [s.lower().startswith(c)] *)
Definition starts (c : ascii) (s : string) : bool :=
  match s with String a _ => Ascii.eqb (lower1 a) c | EmptyString => false end.
(** [s.lower().strip().startswith(c)]; only leading blanks matter, and a string of
    blanks starts with nothing. *)
Fixpoint lstrip (s : string) : string :=
  match s with
  | EmptyString => EmptyString
  | String a r => if is_space a then lstrip r else s
  end.
Definition strip_starts (c : ascii) (s : string) : bool := starts c (lstrip s).

(** The [data] argument: a tabular frame (by reference), or a frame in triangle
    shape with its index name. *)
Inductive data_arg :=
| DFrame (r : ref)
| DTri (m : lmat) (idx_name : option string).

(** triangle.py 1390-1406: "Replace missing actuals".  [triind] is cached on its
    first use, at row 0, column 1, i.e. after only cell (0,0) may have been filled.
    With a single column it is never used. *)
Definition fill00 (cs : list (list val)) : list (list val) :=
  match cs with
  | (c :: row) :: r => ((if isnan c then Fin 1 else c) :: row) :: r
  | _ => cs
  end.
(** Cells 1.. of one row; [prev] is the (updated) cell to the left. *)
Fixpoint fill_rest (prev : val) (ti : list bool) (row : list val) : list val :=
  match row, ti with
  | c :: row', b :: ti' =>
      let c' := if negb b && isnan c then prev else c in
      c' :: fill_rest c' ti' row'
  | _, _ => row
  end.
Definition fill_row (ti : list bool) (row : list val) : list val :=
  match row with
  | [] => []
  | c :: r => let c' := if isnan c then Fin 1 else c in c' :: fill_rest c' (tl ti) r
  end.

(** A triangle object returned by [totri]: the triangle, and the cached [clvi]
    offsets if the fill loop computed them. *)
Record tobj := mkObj { ob_tri : tri; ob_clvi : option (list nat) }.

Definition fill (t : tri) : res tobj :=
  let m := t_mat t in
  if Nat.ltb (ncols m) 2 then
    Ok (mkObj (mkTri (mkMat (m_idx m) (m_cols m) (map (fill_row []) (m_cells m)))
                     (t_o t) (t_d t) (t_v t)) None)
  else
    do cl <- clvi_cells (nrows m) (ncols m) (fill00 (m_cells m)) ;
    let ti := triind (nrows m) cl in
    Ok (mkObj (mkTri (mkMat (m_idx m) (m_cols m)
                        (map (fun p => fill_row (fst p) (snd p)) (combine ti (m_cells m))))
                     (t_o t) (t_d t) (t_v t)) (Some cl)).

(** triangle.py 1353-1371, 1373-1383: the frame handed to the constructor; [Err] if
    the branch raises.  In the tabular/incremental branch [df = data] is an alias. *)
Definition tri_shape_recs (m : lmat) (is_cum : bool) : list rec :=
  sort_recs (drop_nan (melt (if is_cum then mkMat (m_idx m) (m_cols m) (diff_cells m) else m))).

Definition totri_frame (h : heap) (data : data_arg) (data_format data_shape : string)
    (o d v : string) : heap * res ref :=
  if String.eqb data_shape "triangle" then
    match data with
    | DFrame _ => (h, Err Unmodelled)
    | DTri m nm =>
        let go (c : bool) :=
          (* [rename({"index": "origin"})]: the index column must be unnamed or
             already called "origin" *)
          if match nm with None => true | Some s => String.eqb s "origin" end
          then let (h', r) := halloc h (recs_frame "origin" "dev" "value" (tri_shape_recs m c))
               in (h', Ok r)
          else (h, Err KeyError) in
        if strip_starts "i" data_format then go false
        else if strip_starts "c" data_format then go true
        else (h, Err NameError)
    end
  else if String.eqb data_shape "tabular" then
    match data with
    | DTri _ _ => (h, Err Unmodelled)
    | DFrame r =>
        if strip_starts "c" data_format then
          let f1 := frename (hget h r) v "cum" in
          let (h1, r1) := halloc h f1 in
          match fint f1 o, fval f1 "cum" with
          | Ok os, Ok cs =>
              let dv := group_diff (combine os cs) in
              let inc := map (fun p => if isnan (fst p) then snd p else fst p) (combine dv cs) in
              let h2 := hset h1 r1 (fset f1 "incr" (VC inc)) in
              match fdrop (fset f1 "incr" (VC inc)) "cum" with
              | Err e => (h2, Err e)
              | Ok f2 => let (h3, r3) := halloc h2 (frename f2 "incr" v) in (h3, Ok r3)
              end
          | Err e, _ => (h1, Err e)
          | _, Err e => (h1, Err e)
          end
        else (h, Ok r)
    end
  else (h, Err NameError).

(** triangle.py 1289-1407 [totri].  [df.reset_index(drop=True)] (line 1385) makes a
    copy.  A [tri_type] starting with neither "i" nor "c" leaves [tri] unbound. *)
Definition totri_h (h : heap) (data : data_arg) (tri_type data_format data_shape : string)
    (o d v : string) : heap * res tobj :=
  match totri_frame h data data_format data_shape o d v with
  | (h1, Err e) => (h1, Err e)
  | (h1, Ok r1) =>
      let (h2, r2) := halloc h1 (hget h1 r1) in
      if starts "i" tri_type then
        match incr_ctor h2 r2 (Some o) (Some d) (Some v) with
        | (h3, Ok t) => (h3, Ok (mkObj t None))
        | (h3, Err e) => (h3, Err e)
        end
      else if starts "c" tri_type then
        match cum_ctor h2 r2 (Some o) (Some d) (Some v) with
        | (h3, Ok t) => (h3, fill t)
        | (h3, Err e) => (h3, Err e)
        end
      else (h2, Err UnboundLocalError)
  end.

(** [totri] on a frame of its own heap. *)
Definition totri (f : frame) (tri_type data_format data_shape o d v : string) : res tobj :=
  snd (totri_h [f] (DFrame O) tri_type data_format data_shape o d v).
(** [totri] on a frame in triangle shape. *)
Definition totri_tri (m : lmat) (nm : option string)
    (tri_type data_format data_shape o d v : string) : res tobj :=
  snd (totri_h [] (DTri m nm) tri_type data_format data_shape o d v).
