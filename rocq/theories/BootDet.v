(** Model of two properties of the bootstrap's result, bootstrap.py 907-986:
    [origin_dist] and [residuals_detail].  Definitions only. *)

From Coq Require Import String QArith Qcanon Qreals Reals ZArith List Bool.
From Verif Require Import Val QcLib Frame Triangle A2A Base Mack Diag Boot Quant Dist.
Import ListNotations.
Open Scope list_scope.
Open Scope nat_scope.

(** ** [origin_dist] *)

(** A row of [reserve_dist], or of [origin_dist]; origin [None]: "total". *)
Record drec := mkD { d_sim : nat; d_o : option Z; d_latest : val; d_ultimate : val; d_reserve : val }.

(** bootstrap.py 211-213: [reserve_dist], the reserves followed by their sums by
    simulation (NaN skipped). *)
Definition reserve_table (rs : list rrec) : list drec :=
  map (fun r => mkD (v_sim r) (Some (v_o r)) (v_latest r) (v_ultimate r) (v_reserve r)) rs
  ++ map (fun s => let g := filter (fun r => v_sim r =? s) rs in
            mkD s None (skipsum (map v_latest g)) (skipsum (map v_ultimate g)) (skipsum (map v_reserve g)))
         (uniq Nat.compare (map v_sim rs)).
(** The order of the groups: pandas sorts the numbers of a mixed column before its
    strings. *)
Definition dkey_cmp (a b : nat * option Z) : comparison :=
  match Nat.compare (fst a) (fst b) with
  | Eq => match snd a, snd b with
          | Some x, Some y => Z.compare x y
          | Some _, None => Lt
          | None, Some _ => Gt
          | None, None => Eq
          end
  | c => c
  end.
(** bootstrap.py 907-921: [groupby(["sim", "origin"]).sum()] of three columns. *)
Definition origin_dist (rs : list rrec) : list drec :=
  let t := reserve_table rs in
  map (fun k =>
         let g := filter (fun r => match dkey_cmp (d_sim r, d_o r) k with Eq => true | _ => false end) t in
         mkD (fst k) (snd k) (skipsum (map d_latest g)) (skipsum (map d_ultimate g)) (skipsum (map d_reserve g)))
      (uniq dkey_cmp (map (fun r => (d_sim r, d_o r)) t)).

(** ** [residuals_detail] *)

(** One column of the table (lines 962-972). *)
Record rstats := mkRS {
  r_size : nat; r_sum : Qc; r_ssqr : Qc; r_min : Qc; r_max : Qc; r_mean : Qc; r_skew : fl; r_mode : Qc;
  r_cov : fl; r_kurt : val; r_var : val; r_std : fl; r_med : val }.

(** Lines 933-938: all cells in row order, without NaN, then without 0. *)
Definition nonzero (m : lmat) : list val :=
  filter (fun v => negb (veqb v (Fin 0%Qc))) (filter (fun v => negb (isnan v)) (List.concat (m_cells m))).
(** Central moment about the mean, as in [scipy.stats.moment]. *)
Definition qmean (l : list Qc) : Qc := (qsum l / qn (List.length l))%Qc.
Definition moment (k : nat) (l : list Qc) : Qc := qmean (map (fun x => (x - qmean l) ^ k)%Qc l).
Definition qleast (l : list Qc) : Qc := nth 0 (ssort Qccompare l) 0%Qc.
Definition qmost (l : list Qc) : Qc := last (ssort Qccompare l) 0%Qc.
(** Lines 939-951 (and 952-964).  [mode0] is [stats.mode(x, ...).mode[0]], which is an
    exception from scipy 1.11 on (the mode of an array of one dimension is a number).
    scipy returns NaN for skewness and kurtosis when the second moment is 0 (up to
    rounding: exactly 0 here).  Infinite residuals are outside the model. *)
Definition residual_stats (mode0 : list Qc -> res Qc) (m : lmat) : res rstats :=
  match finite (nonzero m) with
  | None => Err Unmodelled
  | Some xs =>
      if List.length xs =? 0 then Err ValueError else       (* min of an empty array *)
      do md <- mode0 xs ;
      let m2 := moment 2 xs in
      let flat := qceqb m2 0 in
      Ok (mkRS (List.length xs) (qsum xs) (qsum (map (fun x => x ^ 2)%Qc xs)) (qleast xs) (qmost xs) (qmean xs)
           (if flat then FNaN else FR (Q2R (moment 3 xs) / (sqrt (Q2R m2) ^ 3))%R)
           md
           (fdiv (fsqrt (FR (Q2R m2))) (FR (Q2R (qmean xs))))
           (if flat then NaN else Fin (moment 4 xs / m2 ^ 2 - qz 3)%Qc)
           (variance1 (map Fin xs))
           (fsqrt (of_val (variance1 (map Fin xs))))
           (vmedian (map Fin xs)))
  end.
(** Lines 923-986: nothing for a parametric bootstrap; else both columns. *)
Definition residuals_detail (mode0 : list Qc -> res Qc) (parametric : bool) (b : boot_result)
  : res (option (rstats * rstats)) :=
  if parametric then Ok None else
  do u <- residual_stats mode0 (o_resid_us b) ;
  do a <- residual_stats mode0 (o_resid_adj b) ;
  Ok (Some (u, a)).
(** scipy 1.11.4, the release the project pins. *)
Definition mode0_pinned (l : list Qc) : res Qc := Err IndexError.
