(** Model of /repo/trikit/estimators/mack.py (59-440) on an indicator table of any shape.
    Definitions only.  Mack.v has the indicators as the cells of a table with the labels
    of a2a; here [w] is mod_a2aind itself, a labelled frame (mack.py 237-247), which may
    have more rows than a2a when indicators were assigned outside of it. *)

From Coq Require Import String QArith Qcanon ZArith List Bool Lia.
From Verif Require Import Val QcLib Frame Triangle A2A Base Mack.
Import ListNotations.
Open Scope list_scope.
Open Scope nat_scope.

(** mack.py 250-272 [_ldfs]. *)
Definition mack_ldfs_w (t : tri) (w : lmat) (alpha : nat) (tail : val) : res series :=
  let m := t_mat t in
  do C <- mod_tri t ;
  let num := falign vmul (falign vmul (a2a m) w) (fmap (fun v => vpow v alpha) C) in
  let den := falign vmul w (fmap (fun v => vpow v alpha) C) in
  let q := map (fun p => vdiv (fst p) (snd p)) (combine (colsums num) (colsums den)) in
  do inc <- increment (m_cols num) ;
  Ok (sset (combine (m_cols num) q) (zmax (m_cols num) + inc) tail).

(** mack.py 301-334 [_devp_variance]. *)
Definition devp_cell_w (t : tri) (C w : lmat) (ldfs : series) (alpha : nat) (indx : nat) (jj : Z) : res val :=
  let m := t_mat t in
  do wj <- fcol w jj ;
  do c <- fcol C jj ;
  do F <- fcol (a2a m) jj ;
  let dev := smap (fun v => vpow v 2) (smap (fun v => vsub v (slookup ldfs jj)) F) in
  let s := salign vmul (salign vmul wj (smap (fun v => vpow v alpha) c)) dev in
  Ok (vdiv (skipsum (map snd s)) (vz (Z.of_nat (nrows m) - Z.of_nat indx - 2))).
Definition devp_variance_w (t : tri) (w : lmat) (ldfs : series) (alpha : nat) : res series :=
  let m := t_mat t in
  do C <- mod_tri t ;
  let idx := map fst (removelast ldfs) in
  let ds := firstn (ncols m - 2) (m_cols m) in
  do vs <- mapM (fun p => devp_cell_w t C w ldfs alpha (fst p) (snd p)) (combine (seq 0 (List.length ds)) ds) ;
  let filled := fold_left (fun s p => sset s (fst p) (snd p)) (combine ds vs) (map (fun d => (d, NaN)) idx) in
  let L := List.length filled in
  if L <? 3 then Err IndexError else
  let a := snd (nth (L - 2) filled (0%Z, NaN)) in
  let b := snd (nth (L - 3) filled (0%Z, NaN)) in
  let lst := vmin2 (vdiv (vpow a 2) b) (vmin2 a b) in
  Ok (set_last filled (fst (last filled (0%Z, NaN)), lst)).

(** mack.py 275-298 [_ldf_variance]. *)
Definition ldf_variance_w (t : tri) (w : lmat) (devpvar : series) (alpha : nat) : res series :=
  do C <- mod_tri t ;
  do vs <- mapM (fun d =>
         do wd <- fcol w d ;
         do c <- fcol C d ;
         Ok (d, vdiv (slookup devpvar d)
                     (skipsum (map snd (salign vmul wd (smap (fun v => vpow v alpha) c))))))
       (m_cols w) ;
  Ok (fold_left (fun s p => sset s (fst p) (snd p)) vs (map (fun p => (fst p, NaN)) devpvar)).

(** mack.py 59-214 [MackChainLadder.__call__], triangle.py 1207-1275 [mack_cl]. *)
Definition mack_cl_w (t : tri) (cl : list nat) (w : lmat) (alpha : nat) (tail : val) : res mack_result :=
  let m := t_mat t in
  do ldfs <- mack_ldfs_w t w alpha (Fin 1%Qc) ;
  do r <- chain_ladder t cl ldfs tail ;
  do dv <- devp_variance_w t w ldfs alpha ;
  do lv <- ldf_variance_w t w dv alpha ;
  let n := ncols m in
  if negb (nrows m =? n) then Err Unmodelled else
  let f := map snd ldfs in
  let sq := fst (c_trisqrd r) in
  let proc := map (fun i => nan0 (process_error_row n f (map snd dv) (nth i sq []) i)) (seq 0 n) in
  let par := map (fun i => nan0 (parameter_error_row n f (map snd lv) (nth i sq []) i)) (seq 0 n) in
  let mse := map (fun p => vadd (fst p) (snd p)) (combine proc par) in
  let u := map s_ultimate (c_rows r) in
  let quot := map snd (salign (fun a b => vdiv a (vpow b 2)) dv ldfs) in
  let tot := skipsum (map (mse_total_row n quot sq mse u) (seq 1 (n - 1))) in
  Ok (mkMack r dv lv proc par mse tot).

(** With the labels of a2a this is Mack.v's [mack_cl]. *)
Lemma mack_cl_w_eq t cl ind alpha tail :
  mack_cl t cl ind alpha tail = mack_cl_w t cl (mod_a2aind (t_mat t) ind) alpha tail.
Proof. reflexivity. Qed.

(** mack.py 237-247 [mod_a2aind] of any indicator table, and mack_cl reading that table. *)
Definition zero_nan (v : val) : val := if veqb v (Fin 0%Qc) then NaN else v.
Definition mack_cl_in (t : tri) (cl : list nat) (F : lmat) (alpha : nat) (tail : val) : res mack_result :=
  mack_cl_w t cl (fmap zero_nan F) alpha tail.
