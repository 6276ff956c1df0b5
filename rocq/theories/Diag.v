(** Model of the diagnostics of /repo/trikit/estimators/mack.py (601-788) and of the
    triangle properties they use (triangle.py 700-773).  Definitions only.

    The tests built on them ([devp_corr_test], [cy_effects_test]) are in Infer.v. *)

From Coq Require Import String QArith Qcanon ZArith List Bool Lia.
From Verif Require Import Val QcLib Frame Triangle A2A Base Mack.
Import ListNotations.
Open Scope string_scope.
Open Scope list_scope.
Open Scope nat_scope.

(** triangle.py 700-716 [a2a_lvi]: development period and last valid origin of each
    a2a column (the row offset column is not used by the diagnostics). *)
Definition a2a_lvi (m : lmat) : res (list (Z * Z)) :=
  let a := a2a m in
  mapM (fun j => match last_valid (mcol a j) with
                 | None => Err KeyError
                 | Some i => Ok (nth j (m_cols a) 0%Z, nth i (m_idx a) 0%Z)
                 end) (seq 0 (ncols a)).

(** [Series.rank()]: average ranks, NaN for NaN. *)
Definition count_if {A} (p : A -> bool) (l : list A) : nat := List.length (filter p l).
Definition rank1 (l : list val) (v : val) : val :=
  if isnan v then NaN
  else Fin (qn (count_if (fun x => vltb x v) l)
            + (qn (count_if (fun x => veqb x v) l) + 1) / qz 2)%Qc.
Definition rank (l : list val) : list val := map (rank1 l) l.

(** triangle.py 720-742 [ranked_a2a]: the columns s_2, r_2, s_3, r_3, ... as (is_s, k,
    ranks by row of a2a); rows missing from a column hold NaN. *)
Definition rank_col := (bool * nat * list val)%type.
Definition rank_list (a : lmat) (lvi : list (Z * Z)) : list rank_col :=
  flat_map (fun p =>
      let indx := fst p in
      let o := snd (snd p) in
      let c := match zfind (fst (snd p)) (m_cols a) with Some j => mcol a j | None => [] end in
      let cs := map (fun q => if (fst q <? o)%Z then snd q else NaN) (combine (m_idx a) c) in
      [(false, S indx, rank c); (true, S (S indx), rank cs)])
    (combine (seq 0 (List.length lvi - 1)) lvi).
Definition ranked_a2a (m : lmat) : res (list rank_col) :=
  do lvi <- a2a_lvi m ;
  match removelast (tl (rank_list (a2a m) lvi)) with
  | [] => Err ValueError                  (* pd.concat of nothing *)
  | l => Ok l
  end.

(** mack.py 601-647 [_spearman_corr_coeffs]: rows (k, w, T_k). *)
Definition coeff_of (n : nat) (s r : rank_col) : Z * Z * val :=
  let k := snd (fst s) in
  let den := vz (Z.of_nat (n - k) ^ 3 - Z.of_nat n + Z.of_nat k) in
  (Z.of_nat k, (Z.of_nat n - Z.of_nat k - 1)%Z,
   vsub (Fin 1%Qc)
        (vmul (vz 6) (skipsum (map (fun p => vdiv (vpow (vsub (fst p) (snd p)) 2) den)
                                   (combine (snd r) (snd s)))))).
Fixpoint coeffs_of (n : nat) (l : list rank_col) : list (Z * Z * val) :=
  match l with
  | s :: r :: rest => coeff_of n s r :: coeffs_of n rest
  | _ => []
  end.
Definition spearman_coeffs (m : lmat) : res (list (Z * Z * val)) :=
  do l <- ranked_a2a m ; Ok (coeffs_of (ncols m) l).

(** mack.py 650-659 [_spearman_corr_total]. *)
Definition spearman_total (m : lmat) : res val :=
  do cs <- spearman_coeffs m ;
  Ok (vdiv (skipsum (map (fun c => vmul (vz (snd (fst c))) (snd c)) cs))
           (skipsum (map (fun c => vz (snd (fst c))) cs))).

(** mack.py 662-670 [_devp_corr_test_var]. *)
Definition devp_corr_test_var (m : lmat) : Qc :=
  let n := Z.of_nat (ncols m) in (qz ((n - 2) * (n - 3)) / qz 2)%Qc.

(** [DataFrame.median(axis=0)]: NaN skipped. *)
Definition vmedian (l : list val) : val :=
  let s := ssort vcmp (filter (fun v => negb (isnan v)) l) in
  let n := List.length s in
  match s with
  | [] => NaN
  | _ => vdiv (vadd (nth ((n - 1) / 2) s NaN) (nth (n / 2) s NaN)) (vz 2)
  end.
(** [np.allclose(a, b)] of two scalars: |a - b| <= 1e-8 + 1e-5 |b|, on numbers. *)
Definition qabs (q : Qc) : Qc := if qcltb q 0 then (- q)%Qc else q.
Definition atol : Qc := (1 / qz 100000000)%Qc.
Definition rtol : Qc := (1 / qz 100000)%Qc.
Definition allclose (a b : val) : bool :=
  match a, b with
  | Fin x, Fin y => qcleb (qabs (x - y)) (atol + rtol * qabs y)
  | PInf, PInf => true | NInf, NInf => true
  | _, _ => false
  end.
(** triangle.py 746-773 [a2a_assignment]: None where a2a is NaN. *)
Definition assign1 (med v : val) : option Z :=
  if isnan v then None
  else if allclose v med then Some 0%Z
  else if vltb med v then Some 1%Z else Some (-1)%Z.
Definition a2a_assignment (m : lmat) : list (list (option Z)) :=
  let a := a2a m in
  map (fun i => map (fun j => assign1 (vmedian (mcol a j)) (cell (m_cells a) i j)) (seq 0 (ncols a)))
      (seq 0 (nrows a)).
Definition hl_at (m : lmat) (o d : Z) : option Z :=
  let a := a2a m in
  match zfind o (m_idx a), zfind d (m_cols a) with
  | Some i, Some j => nth j (nth i (a2a_assignment m) []) None
  | _, _ => None
  end.

(** mack.py 747-748: [diff().dropna().unique().item()]. *)
Definition diffs (l : list Z) : list Z := map (fun p => (snd p - fst p)%Z) (combine l (tl l)).
Definition item (l : list Z) : res Z :=
  match uniq Z.compare l with [x] => Ok x | _ => Err ValueError end.

(** mack.py 754-763: (j, S, L) by diagonal, latest first; [os] are the origins paired
    with the leading development periods, moved up by one at each step. *)
Definition zcount (x : Z) (l : list (option Z)) : nat :=
  count_if (fun o => match o with Some y => (y =? x)%Z | None => false end) l.
Fixpoint cy_counts (m : lmat) (ds os : list Z) (js : list nat) : list (nat * nat * nat) :=
  match js with
  | [] => []
  | j :: r =>
      let hl := map (fun p => hl_at m (fst p) (snd p)) (combine os ds) in
      (j, zcount (-1)%Z hl, zcount 1%Z hl) :: cy_counts m ds (tl os) r
  end.

(** [scipy.special.binom] on integers 0 <= k, n. *)
Fixpoint binom (n k : nat) : nat :=
  match n, k with
  | _, O => 1
  | O, S _ => 0
  | S n', S k' => binom n' k' + binom n' (S k')
  end.

(** mack.py 765-786: [E_Z] and [V_Z] for [n] >= 1 (for n = 0 the code asks scipy for
    binom(-1, -1); [None] here). *)
Definition q2pow (n : nat) : Qc := (qz 2 ^ n)%Qc.
Definition e_z (n : nat) : Qc :=
  (qn n / qz 2 - qn (binom (n - 1) ((n - 1) / 2)) * (qn n / q2pow n))%Qc.
Definition v_z (n : nat) : Qc :=
  (qn n * (qn n - 1) / qz 4
   - qn (binom (n - 1) ((n - 1) / 2)) * (qn n * (qn n - 1) / q2pow n) + e_z n - e_z n * e_z n)%Qc.
Record cy_row := mkCy {
  y_j : nat; y_S : nat; y_L : nat; y_Z : nat; y_n : nat; y_E : option Qc; y_V : option Qc }.
Definition cy_of (c : nat * nat * nat) : cy_row :=
  let s := snd (fst c) in
  let l := snd c in
  let n := s + l in
  mkCy (fst (fst c)) s l (Nat.min s l) n
       (if n =? 0 then None else Some (e_z n)) (if n =? 0 then None else Some (v_z n)).

(** mack.py 705-788 [_cy_effects_table] (rows sorted by j). *)
Definition cy_effects_table (m : lmat) : res (list cy_row) :=
  do lvi <- a2a_lvi m ;
  do _ <- item (diffs (map fst lvi)) ;
  do _ <- item (diffs (map snd lvi)) ;
  let n := List.length lvi in
  Ok (map cy_of (rev (cy_counts m (map fst lvi) (map snd lvi) (rev (seq 2 (n - 1)))))).
