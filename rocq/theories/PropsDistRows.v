(** C34: the lognormal distributions of the rows with a reserve of 0, with a standard
    error of 0 and with a negative reserve. *)

From Coq Require Import String QArith Qcanon Qreals Reals Lra Lia ZArith List Bool.
From Verif Require Import Val Frame Triangle A2A Base Mack QcLib Spec ExTri ExMack MackClaims2 MackClaims3 SpecDist Dist DistClaims DistRows.
Import ListNotations.
Open Scope list_scope.
Local Open Scope R_scope.

(** Together with C34_lognormal_moments these are all rows whose standard error is a
    number.  Without a standard error the distribution is a constant, which is the
    reserve from a reserve of 1 upwards and 1 below it; a reserve of 0 with a standard
    error gives no distribution (shape inf), nor does a negative reserve (scale NaN). *)
Theorem C34_lognormal_other_rows :
  forall (k : mack_result) (i : nat) (reserve std_error : R),
  nth_error (mack_reserves k) i = Some (FR reserve) ->
  nth_error (mack_std_errors k) i = Some (FR std_error) ->
  exists rvs, mack_rvs "lognorm" k = Ok rvs /\
    (0 <= reserve -> std_error = 0 ->
       exists s scale, nth_error rvs i = Some (Lognorm (FR s) (FR scale)) /\
         mean (lognormal s scale) (Rmax reserve 1) /\ std_dev (lognormal s scale) 0) /\
    (reserve = 0 -> 0 < std_error -> nth_error rvs i = Some (Lognorm FPInf (FR 0))) /\
    (reserve < 0 ->
       nth_error rvs i =
         Some (Lognorm (FR (sqrt (ln (1 + std_error / reserve * (std_error / reserve))))) FNaN)).
Proof. exact c34_other. Qed.
Print Assumptions C34_lognormal_other_rows.

(** The oldest origin of a positive run-off triangle has nothing left to develop: its
    reserve and standard error are 0 in every run.  Its fitted lognormal says 1. *)
Theorem C34_oldest_origin_refuted :
  forall (m : lmat) (n : nat) (C : nat -> nat -> Qc),
  regular m n C -> positive n C -> (3 < n)%nat -> tail_fits (m_cols m) ->
  forall cl, clvi m = Ok cl ->
  forall (ind : list (list val)) (W : nat -> nat -> Qc), weights ind n W ->
  forall (alpha : nat) (v : string) (tail : val) (k : mack_result),
  mack_cl (mkTri m "origin" "dev" v) cl ind alpha tail = Ok k ->
  nth_error (mack_reserves k) 0 = Some (FR 0) /\ nth_error (mack_std_errors k) 0 = Some (FR 0) /\
  exists rvs s scale, mack_rvs "lognorm" k = Ok rvs /\
    nth_error rvs 0 = Some (Lognorm (FR s) (FR scale)) /\
    mean (lognormal s scale) 1 /\ std_dev (lognormal s scale) 0.
Proof. exact c34_first. Qed.
Print Assumptions C34_oldest_origin_refuted.

Example C34_rows_nonvacuous :
  regular ex_m 4 ex_C /\ positive 4 ex_C /\ tail_fits (m_cols ex_m) /\ clvi ex_m = Ok [3; 2; 1; 0]%nat /\
  weights (a2aind_init ex_m) 4 (fun _ _ => 1%Qc) /\
  mack_cl (mkTri ex_m "origin" "dev" "value") [3; 2; 1; 0]%nat (a2aind_init ex_m) 1 (vz 1) = Ok ex_k.
Proof.
  split; [exact ex_regular|]. split; [exact ex_positive|]. split; [exact ex_spaced|].
  split; [vm_compute; reflexivity|]. split; [exact ex_weights|exact ex_k_ok].
Qed.
