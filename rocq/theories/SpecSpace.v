(** Specification for development periods at any spacing (C22, C53). *)

From Coq Require Import ZArith List Qcanon Bool.
From Verif Require Import Val Frame Base Mack.
Import ListNotations.

(** The step between development periods [j] and [j+1]. *)
Definition step (ds : list Z) (j : nat) : Z := (nth (S j) ds 0%Z - nth j ds 0%Z)%Z.

(** [g] is the smallest step between all periods but the last. *)
Definition smallest_early_step (ds : list Z) (g : Z) : Prop :=
  (forall j, (j < length ds - 2)%nat -> (g <= step ds j)%Z) /\
  (exists j, (j < length ds - 2)%nat /\ g = step ds j).

(** The same table with another label for the last development period. *)
Definition with_last_period (m : lmat) (D : Z) : lmat :=
  mkMat (m_idx m) (removelast (m_cols m) ++ [D]) (m_cells m).

(** The summary row of a result for which the last period was called [D], when the
    triangle calls it [d]: the maturity is shown as [d] and, if [d] is not [D], the
    cumulative factor and the emergence are missing. *)
Definition show_last (D d : Z) (row : srow) : srow :=
  if (s_maturity row =? D)%Z then
    mkRow (s_origin row) d (if (D =? d)%Z then s_cldf row else NaN) (if (D =? d)%Z then s_emergence row else NaN)
      (s_latest row) (s_ultimate row) (s_reserve row)
  else row.
Definition show_last_in (D d : Z) (r : cl_result) : cl_result :=
  mkRes (map (show_last D d) (c_rows r)) (c_total r) (c_ldfs r) (c_trisqrd r) (c_tail r).
Definition show_last_mack (D d : Z) (k : mack_result) : mack_result :=
  mkMack (show_last_in D d (k_cl k)) (k_devpvar k) (k_ldfvar k) (k_proc k) (k_param k) (k_mse k) (k_mse_total k).
Definition ok_map {A B} (g : A -> B) (x : res A) : res B := match x with Ok a => Ok (g a) | Err e => Err e end.
