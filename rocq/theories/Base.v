(** Model of /repo/trikit/estimators/base.py (53-281): the chain ladder.
    Definitions only. *)

From Coq Require Import QArith Qcanon ZArith List Bool String Lia.
From Verif Require Import Val Frame Triangle A2A.
Import ListNotations.
Open Scope string_scope.
Open Scope list_scope.
Open Scope nat_scope.

Definition series := list (Z * val).

Definition slookup (s : series) (k : Z) : val :=
  match find (fun p => Z.eqb (fst p) k) s with Some p => snd p | None => NaN end.

(** [s.loc[k] = v]: overwrite or append. *)
Fixpoint sset (s : series) (k : Z) (v : val) : series :=
  match s with
  | [] => [(k, v)]
  | p :: r => if Z.eqb (fst p) k then (k, v) :: r else p :: sset r k v
  end.

(** [np.unique(idx[1:] - idx[:-1])[0]], base.py 108, 175: the smallest step;
    IndexError when there is no step. *)
Fixpoint steps (l : list Z) : list Z :=
  match l with
  | [] => []
  | a :: r => match r with [] => [] | b :: _ => (b - a)%Z :: steps r end
  end.
Definition increment (l : list Z) : res Z :=
  match steps l with [] => Err IndexError | s => Ok (zmin s) end.
Fixpoint zmax (l : list Z) : Z :=
  match l with
  | [] => 0%Z
  | [x] => x
  | x :: r => Z.max x (zmax r)
  end.

Definition zvsort (s : series) : series := ssort (fun a b => Z.compare (fst a) (fst b)) s.

(** base.py 156-177 [_ldfs]: [a2a_avgs().loc[sel]], tail appended after the last
    label. *)
Definition ldfs_of_label (gm : list val -> val) (m : lmat) (ind : list (list val))
    (sel : string) (tail : val) : res series :=
  do avgs <- a2a_avgs gm m ind ;
  match find (fun p => String.eqb (fst p) sel) avgs with
  | None => Err KeyError
  | Some row =>
      let cols := m_cols (a2a m) in
      do inc <- increment cols ;
      Ok (zvsort (sset (combine cols (snd row)) (zmax cols + inc) tail))
  end.

(** The [sel] argument (base.py 91-121). *)
Inductive sel_arg :=
| SelLabel (s : string)
| SelSeq (l : list val)          (* list, tuple, ndarray *)
| SelSeries (s : series).        (* pd.Series, by reference *)

(** base.py 91-121: the ldfs used, and the caller's [sel] afterwards (a Series is
    written to in place at line 109).  Line 115: the length check of a sequence is
    followed by a contradictory test and never raises; line 121 raises ValueError
    when the length does not fit. *)
Definition select_ldfs (gm : list val -> val) (m : lmat) (ind : list (list val))
    (sel : sel_arg) (tail : val) : sel_arg * res series :=
  match sel with
  | SelLabel s => (sel, ldfs_of_label gm m ind s tail)
  | SelSeq l =>
      let l' := l ++ [tail] in
      (sel, if List.length l' =? ncols m then Ok (combine (m_cols m) l') else Err ValueError)
  | SelSeries s =>
      if List.length s =? ncols m - 1 then
        match increment (map fst s) with
        | Err e => (sel, Err e)
        | Ok inc =>
            let s' := sset s (zmax (map fst s) + inc) tail in
            (SelSeries s', Ok (map (fun d => (d, slookup s' d)) (m_cols m)))
        end
      else (sel, Err ValueError)
  end.

(** [np.cumprod(x[::-1])[::-1]]: suffix products. *)
Fixpoint suffix_prods (l : list val) : list val :=
  match l with
  | [] => []
  | x :: r => match suffix_prods r with
              | [] => [x]
              | (p :: _) as ps => vmul p x :: ps
              end
  end.

(** base.py 180-200 [_cldfs]. *)
Definition cldfs (ldfs : series) : series :=
  zvsort (combine (map fst ldfs) (suffix_prods (map snd ldfs))).

(** Element-wise product of arrays with numpy broadcasting of a length-1 operand. *)
Definition bmul (a b : list val) : res (list val) :=
  if List.length a =? List.length b then Ok (map (fun p => vmul (fst p) (snd p)) (combine a b))
  else match a, b with
       | [x], _ => Ok (map (vmul x) b)
       | _, [y] => Ok (map (fun x => vmul x y) a)
       | _, _ => Err ValueError
       end.

(** base.py 203-225 [_ultimates]: positional product of latest and reversed cldfs. *)
Definition ultimates (t : tri) (cl : series) : res series :=
  do lt <- latest_by_origin t ;
  do p <- bmul (map snd lt) (rev (map snd cl)) ;
  if List.length p =? nrows (t_mat t) then Ok (zvsort (combine (m_idx (t_mat t)) p))
  else Err ValueError.

(** base.py 228-252 [_reserves]: label-aligned difference, reindexed. *)
Definition reserves (t : tri) (ult : series) : res series :=
  do lt <- latest_by_origin t ;
  Ok (zvsort (map (fun o => (o, vsub (slookup ult o) (slookup lt o))) (m_idx (t_mat t)))).

(** base.py 255-281 [_trisqrd]: column by column, rows below the last valid row are
    the previous (already squared) column times the ldf at the previous position. *)
Definition sqr_col (cl : nat) (ldf : val) (prev cur : list val) : list val :=
  map (fun p => if cl <? fst p then vmul (fst (snd p)) ldf else snd (snd p))
      (combine (seq 0 (List.length cur)) (combine prev cur)).
Fixpoint sqr_cols (prev : list val) (rest : list (list val * (nat * val))) : list (list val) :=
  match rest with
  | [] => []
  | (c, (cl, l)) :: r => let c' := sqr_col cl l prev c in c' :: sqr_cols c' r
  end.
Definition trisqrd_cols (m : lmat) (cl : list nat) (ldfs : list val) : res (list (list val)) :=
  let cols := map (mcol m) (seq 0 (ncols m)) in
  if List.length ldfs <? ncols m - 1 then Err IndexError else
  match cols with
  | [] => Err IndexError
  | c0 :: r => Ok (c0 :: sqr_cols c0 (combine r (combine (tl cl) ldfs)))
  end.
(** The squared triangle by rows, with its "ultimate" column. *)
Definition trisqrd (m : lmat) (cl : list nat) (ldfs : list val)
  : res (list (list val) * list val) :=
  do cols <- trisqrd_cols m cl ldfs ;
  Ok (map (fun i => map (fun c => nth i c NaN) cols) (seq 0 (nrows m)),
      map (fun x => vmul x (last ldfs NaN)) (last cols [])).

(** One row of the summary, base.py 131-145. *)
Record srow := mkRow {
  s_origin : Z; s_maturity : Z; s_cldf : val; s_emergence : val;
  s_latest : val; s_ultimate : val; s_reserve : val }.
Record cl_result := mkRes {
  c_rows : list srow;
  c_total : val * val * val;                     (* latest, ultimate, reserve *)
  c_ldfs : series;
  c_trisqrd : list (list val) * list val;
  c_tail : val }.

(** base.py 53-153 [BaseChainLadder.__call__], after ldf selection.  [cl] are the
    triangle's (cached) last valid row offsets. The maturity/cldf join (line 137) is
    by label; [dfsumm.sum()] (147) skips NaN. *)
Definition chain_ladder (t : tri) (cl : list nat) (ldfs : series) (tail : val) : res cl_result :=
  let m := t_mat t in
  let cd := cldfs ldfs in
  do ult <- ultimates t cd ;
  do rsv <- reserves t ult ;
  do mat <- maturity m (triind (nrows m) cl) ;
  do lt <- latest_by_origin t ;
  do sq <- trisqrd m cl (map snd ldfs) ;
  let rows := map (fun p => let o := fst p in let mt := snd p in
                 let c := slookup cd mt in
                 mkRow o mt c (vdiv (Fin 1%Qc) c) (slookup lt o) (slookup ult o) (slookup rsv o))
               (combine (m_idx m) mat) in
  Ok (mkRes rows
        (skipsum (map s_latest rows), skipsum (map s_ultimate rows), skipsum (map s_reserve rows))
        ldfs sq tail).

(** base.py 53-153, triangle.py 1101-1139 [base_cl]. *)
Definition base_cl (gm : list val -> val) (t : tri) (cl : list nat) (ind : list (list val))
    (sel : sel_arg) (tail : val) : sel_arg * res cl_result :=
  let (sel', r) := select_ldfs gm (t_mat t) ind sel tail in
  (sel', do ldfs <- r ; chain_ladder t cl ldfs tail).
