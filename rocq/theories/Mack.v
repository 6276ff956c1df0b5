(** Model of /repo/trikit/estimators/mack.py (59-467): the Mack chain ladder up to the
    mean squared errors.  The square roots and the fitted distributions are in
    Dist.v.  Definitions only.

    Simplifications: [alpha] is a natural number (documented values 0, 1, 2); the
    recursions for the errors are modelled for triangles with as many origins as
    development periods (others give [Unmodelled]). *)

From Coq Require Import String QArith Qcanon ZArith List Bool Lia.
From Verif Require Import Val QcLib Frame Triangle A2A Base.
Import ListNotations.
Open Scope string_scope.
Open Scope list_scope.
Open Scope nat_scope.

(** [x ** k] of numpy for a natural [k]; [nan ** 0] is 1. *)
Fixpoint vpow (v : val) (k : nat) : val :=
  match k with O => Fin 1%Qc | S k' => vmul v (vpow v k') end.

(** [np.min] of two values: NaN if one of them is. *)
Definition vmin2 (a b : val) : val :=
  if isnan a || isnan b then NaN else if vleb a b then a else b.

(** Element-wise operation on two frames, aligned on both axes (outer join). *)
Definition zunion (a b : list Z) : list Z :=
  if listb Z.eqb a b then a else uniq Z.compare (a ++ b).
Definition mget (m : lmat) (o d : Z) : val :=
  match cell_at m o d with Some v => v | None => NaN end.
Definition falign (op : val -> val -> val) (a b : lmat) : lmat :=
  let os := zunion (m_idx a) (m_idx b) in
  let ds := zunion (m_cols a) (m_cols b) in
  mkMat os ds (map (fun o => map (fun d => op (mget a o d) (mget b o d)) ds) os).
Definition fmap (g : val -> val) (m : lmat) : lmat :=
  mkMat (m_idx m) (m_cols m) (map (map g) (m_cells m)).
(** [sum(axis=0)]: NaN skipped. *)
Definition colsums (m : lmat) : list val := map (fun j => skipsum (mcol m j)) (seq 0 (ncols m)).

(** mack.py 218-233 [mod_tri]: the triangle without its latest diagonal. *)
Definition mod_tri (t : tri) : res lmat :=
  do lt <- latest t ;
  let m := t_mat t in
  let cs := map (fun o => map (fun d =>
                 if existsb (fun r => keqb (fst r) (o, d)) lt then NaN else mget m o d)
               (m_cols m)) (m_idx m) in
  let kr := filter (fun i => existsb (fun j => negb (isnan (cell cs i j))) (seq 0 (ncols m)))
              (seq 0 (nrows m)) in
  let kc := filter (fun j => existsb (fun i => negb (isnan (cell cs i j))) kr) (seq 0 (ncols m)) in
  Ok (mkMat (map (fun i => nth i (m_idx m) 0%Z) kr)
            (map (fun j => nth j (m_cols m) 0%Z) kc)
            (map (fun i => map (fun j => cell cs i j) kc) kr)).

(** mack.py 237-247 [mod_a2aind]: [replace(0, nan)]; [ind] are the cells of the
    triangle's a2aind. *)
Definition mod_a2aind (m : lmat) (ind : list (list val)) : lmat :=
  let a := a2a m in
  mkMat (m_idx a) (m_cols a)
        (mk (nrows a) (ncols a) (fun i j => if veqb (cell ind i j) (Fin 0%Qc) then NaN else cell ind i j)).

(** mack.py 250-272 [_ldfs]. *)
Definition wC (m C : lmat) (ind : list (list val)) (alpha : nat) : lmat :=
  falign vmul (mod_a2aind m ind) (fmap (fun v => vpow v alpha) C).
Definition mack_ldfs (t : tri) (ind : list (list val)) (alpha : nat) (tail : val) : res series :=
  let m := t_mat t in
  do C <- mod_tri t ;
  let num := falign vmul (falign vmul (a2a m) (mod_a2aind m ind)) (fmap (fun v => vpow v alpha) C) in
  let den := wC m C ind alpha in
  let q := map (fun p => vdiv (fst p) (snd p)) (combine (colsums num) (colsums den)) in
  do inc <- increment (m_cols num) ;
  Ok (sset (combine (m_cols num) q) (zmax (m_cols num) + inc) tail).

(** One column of a frame as a series; KeyError if there is no such column. *)
Definition fcol (m : lmat) (d : Z) : res series :=
  match zfind d (m_cols m) with
  | Some j => Ok (combine (m_idx m) (mcol m j))
  | None => Err KeyError
  end.
(** Element-wise operation on two series, aligned. *)
Definition salign (op : val -> val -> val) (a b : series) : series :=
  map (fun k => (k, op (slookup a k) (slookup b k))) (zunion (map fst a) (map fst b)).
Definition smap (g : val -> val) (s : series) : series := map (fun p => (fst p, g (snd p))) s.

(** mack.py 301-334 [_devp_variance]. *)
Definition devp_cell (t : tri) (C : lmat) (ind : list (list val)) (ldfs : series) (alpha : nat)
    (indx : nat) (jj : Z) : res val :=
  let m := t_mat t in
  do w <- fcol (mod_a2aind m ind) jj ;
  do c <- fcol C jj ;
  do F <- fcol (a2a m) jj ;
  let dev := smap (fun v => vpow v 2) (smap (fun v => vsub v (slookup ldfs jj)) F) in
  let s := salign vmul (salign vmul w (smap (fun v => vpow v alpha) c)) dev in
  Ok (vdiv (skipsum (map snd s)) (vz (Z.of_nat (nrows m) - Z.of_nat indx - 2))).
Definition set_last {A} (l : list A) (x : A) : list A := removelast l ++ [x].
Definition devp_variance (t : tri) (ind : list (list val)) (ldfs : series) (alpha : nat) : res series :=
  let m := t_mat t in
  do C <- mod_tri t ;
  let idx := map fst (removelast ldfs) in
  let ds := firstn (ncols m - 2) (m_cols m) in
  do vs <- mapM (fun p => devp_cell t C ind ldfs alpha (fst p) (snd p)) (combine (seq 0 (List.length ds)) ds) ;
  let filled := fold_left (fun s p => sset s (fst p) (snd p)) (combine ds vs) (map (fun d => (d, NaN)) idx) in
  let L := List.length filled in
  if L <? 3 then Err IndexError else
  let a := snd (nth (L - 2) filled (0%Z, NaN)) in
  let b := snd (nth (L - 3) filled (0%Z, NaN)) in
  let lst := vmin2 (vdiv (vpow a 2) b) (vmin2 a b) in
  Ok (set_last filled (fst (last filled (0%Z, NaN)), lst)).

(** mack.py 275-298 [_ldf_variance]. *)
Definition ldf_variance (t : tri) (ind : list (list val)) (devpvar : series) (alpha : nat) : res series :=
  let m := t_mat t in
  do C <- mod_tri t ;
  let wm := mod_a2aind m ind in
  do vs <- mapM (fun d =>
         do w <- fcol wm d ;
         do c <- fcol C d ;
         Ok (d, vdiv (slookup devpvar d)
                     (skipsum (map snd (salign vmul w (smap (fun v => vpow v alpha) c))))))
       (m_cols wm) ;
  Ok (fold_left (fun s p => sset s (fst p) (snd p)) vs (map (fun p => (fst p, NaN)) devpvar)).

(** mack.py 337-387 [_process_error]: the last column, row [i] (0-based) of the frame.
    [sq] is the squared triangle, [f] the ldfs, [dv] the development variances, all
    by position.  [pe_from k cnt x]: from the error [x] in column [k] advance [cnt]
    columns. *)
Definition at1 (l : list val) (k : nat) : val := nth k l NaN.
Fixpoint pe_from (f dv row : list val) (k cnt : nat) (x : val) : val :=
  match cnt with
  | O => x
  | S c => pe_from f dv row (S k) c
             (vadd (vmul (vpow (at1 f k) 2) x) (vmul (at1 row k) (at1 dv k)))
  end.
Definition process_error_row (n : nat) (f dv row : list val) (i : nat) : val :=
  if i =? 0 then NaN else
  let k0 := n - i in      (* 0-based position of the first future period *)
  pe_from f dv row k0 (n - 1 - k0) (vmul (at1 row (k0 - 1)) (at1 dv (k0 - 1))).

(** mack.py 390-440 [_parameter_error], likewise. *)
Fixpoint qe_from (f lv row : list val) (k cnt : nat) (x : val) : val :=
  match cnt with
  | O => x
  | S c => qe_from f lv row (S k) c
             (vadd (vadd (vmul (vpow (at1 f k) 2) x) (vmul (vpow (at1 row k) 2) (at1 lv k)))
                   (vmul (at1 lv k) x))
  end.
Definition parameter_error_row (n : nat) (f lv row : list val) (i : nat) : val :=
  if i =? 0 then NaN else
  let k0 := n - i in
  qe_from f lv row k0 (n - 1 - k0) (vmul (vpow (at1 row (k0 - 1)) 2) (at1 lv (k0 - 1))).

(** [.replace(np.NaN, 0)], mack.py 122-129. *)
Definition nan0 (v : val) : val := if isnan v then Fin 0%Qc else v.

(** mack.py 163-180: the terms of the aggregate mse.  [u] are the ultimates by row,
    [quot] the quotients devpvar / ldfs^2 by position. *)
Definition rh_sum (n : nat) (quot : list val) (sq : list (list val)) (i : nat) : val :=
  vsum (map (fun j => vdiv (at1 quot j) (vsum (map (fun l => cell sq l j) (seq 0 (n - 1 - j)))))
            (seq (n - 1 - i) i)).
Definition mse_total_row (n : nat) (quot : list val) (sq : list (list val)) (mse u : list val) (i : nat) : val :=
  vadd (at1 mse i)
       (vmul (vmul (vmul (Fin (qz 2)) (at1 u i)) (skipsum (skipn (S i) u))) (rh_sum n quot sq i)).

Record mack_result := mkMack {
  k_cl : cl_result;                 (* summary rows, totals, ldfs, trisqrd, stored tail *)
  k_devpvar : series; k_ldfvar : series;
  k_proc : list val; k_param : list val; k_mse : list val;    (* by origin *)
  k_mse_total : val }.

(** mack.py 59-214 [MackChainLadder.__call__], triangle.py 1207-1275 [mack_cl]; the
    [tail] argument is only stored. *)
Definition mack_cl (t : tri) (cl : list nat) (ind : list (list val)) (alpha : nat) (tail : val)
  : res mack_result :=
  let m := t_mat t in
  do ldfs <- mack_ldfs t ind alpha (Fin 1%Qc) ;
  do r <- chain_ladder t cl ldfs tail ;
  do dv <- devp_variance t ind ldfs alpha ;
  do lv <- ldf_variance t ind dv alpha ;
  let n := ncols m in
  if negb (nrows m =? n) then Err Unmodelled else
  let f := map snd ldfs in
  let sq := fst (c_trisqrd r) in
  let proc := map (fun i => nan0 (process_error_row n f (map snd dv) (nth i sq []) i)) (seq 0 n) in
  let par := map (fun i => nan0 (parameter_error_row n f (map snd lv) (nth i sq []) i)) (seq 0 n) in
  let mse := map (fun p => vadd (fst p) (snd p)) (combine proc par) in
  let u := map s_ultimate (c_rows r) in
  let quot := map snd (salign (fun a b => vdiv a (vpow b 2)) dv ldfs) in
  let tot := skipsum (map (mse_total_row n quot sq mse u) (seq 1 (n - 1))) in
  Ok (mkMack r dv lv proc par mse tot).
