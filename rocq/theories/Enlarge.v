(** Model of the a2aind setter on any pair of labels (triangle.py 608-697) and of
    a2a_avgs and base_cl on an indicator table that pandas has enlarged.  Definitions
    only.

    The indicator table is a labelled frame here (a2aind is a DataFrame); A2A.v and
    State.v have it as the cells of a table with the labels of a2a. *)

From Coq Require Import String QArith Qcanon ZArith List Bool Lia.
From Verif Require Import Val Frame Triangle A2A Base Mack.
Import ListNotations.
Open Scope list_scope.
Open Scope nat_scope.

(** triangle.py 593-605 [a2aind], initial value, with its labels. *)
Definition ind_frame (m : lmat) : lmat :=
  mkMat (m_idx (a2a m)) (m_cols (a2a m)) (a2aind_init m).

(** [DataFrame.at[o, d] = v], triangle.py 696-697: a label that is absent is appended to
    its axis, the other cells of its row or column being NaN. *)
Definition zmem (x : Z) (l : list Z) : bool := existsb (Z.eqb x) l.
Definition zadd (x : Z) (l : list Z) : list Z := if zmem x l then l else l ++ [x].
Definition frame_at (F : lmat) (o d : Z) (v : val) : lmat :=
  let os := zadd o (m_idx F) in
  let ds := zadd d (m_cols F) in
  mkMat os ds (map (fun o' => map (fun d' =>
    if (Z.eqb o' o && Z.eqb d' d)%bool then v else mget F o' d') ds) os).

(** The table after a series of assignments. *)
Definition frame_after (m : lmat) (l : list (Z * Z * val)) : lmat :=
  fold_left (fun F a => frame_at F (fst (fst a)) (snd (fst a)) (snd a)) l (ind_frame m).

(** triangle.py 777-856 [a2a_avgs] with such a table: [a2a * a2aind] aligns the labels
    (outer join, 803), the loop runs over its columns by position (808-809), the
    weighted averages take the triangle's columns at the same position (813).  The
    window of a column ends at its first NaN. *)
Definition one_avg_in (gm : list val -> val) (m adj : lmat) (a : avgtype) (dur col : nat) : res val :=
  let w := window dur (mcol adj col) in
  match a with
  | Simple => simple_avg w
  | Geometric => geometric_avg gm w
  | Medial => medial_avg w
  | Weighted => weighted_avg m dur col
  end.
Definition avgs_in (gm : list val -> val) (m F : lmat) : res (list (string * list val)) :=
  let adj := falign vmul (a2a m) F in
  mapM (fun sp => do row <- mapM (one_avg_in gm m adj (fst sp) (snd sp)) (seq 0 (ncols adj)) ;
                  Ok (avg_label (fst sp) (snd sp), row))
       (avg_specs (nrows (a2a m))).

(** base.py 53-153 with the name of an average (156-177), reading that table. *)
Definition ldfs_in (gm : list val -> val) (m F : lmat) (sel : string) (tail : val) : res series :=
  do avgs <- avgs_in gm m F ;
  match find (fun p => String.eqb (fst p) sel) avgs with
  | None => Err KeyError
  | Some row =>
      let cols := m_cols (a2a m) in
      do inc <- increment cols ;
      Ok (zvsort (sset (combine cols (snd row)) (zmax cols + inc) tail))
  end.
Definition base_cl_in (gm : list val -> val) (t : tri) (cl : list nat) (F : lmat) (sel : string) (tail : val)
  : res cl_result :=
  do ldfs <- ldfs_in gm (t_mat t) F sel tail ; chain_ladder t cl ldfs tail.
