(** Property C49: the diagnostic residuals. *)

From Coq Require Import String QArith Qcanon ZArith List Bool Lia.
From Verif Require Import Val QcLib Frame Triangle A2A Base Mack Resid Spec ExTri ResidClaims.
Import ListNotations.
Open Scope list_scope.
Open Scope nat_scope.

(** Proved part: the residuals.  For a regular triangle and factors [f], the table by
    development period lists, for every transition but the last, the residuals
    [C i j * f j - C i (j+1)] of all origins observed at both ends; the one by origin lists
    the same differences along each origin but the last.  Missing: the scale, see
    [C49_scale_refuted]; the code uses [code_sigma2] and [code_scale2]. *)
Theorem C49_residuals_by_devp_partial :
  forall (m : lmat) (n : nat) (C : nat -> nat -> Qc) (f : nat -> Qc), regular m n C -> 3 <= n ->
  residuals_by_devp m (map (fun j => (nth j (m_cols m) 0%Z, Fin (f j))) (seq 0 n)) =
  Ok (flat_map (fun j =>
      let c := n - 1 - j in
      let r i := (C i j * f j - C i (S j))%Qc in
      map (fun i => mkResid (nth i (m_idx m) 0%Z) (Fin (r i)) (Fin (code_sigma2 c r)) (Fin (code_scale2 c r))
                      (nth j (m_cols m) 0%Z)) (seq 0 c))
    (seq 0 (n - 2))).
Proof. intros m n C f Hr Hn. exact (by_devp m n C f Hr Hn). Qed.
Print Assumptions C49_residuals_by_devp_partial.

Theorem C49_residuals_by_origin_partial :
  forall (m : lmat) (n : nat) (C : nat -> nat -> Qc) (f : nat -> Qc), regular m n C -> 2 <= n ->
  residuals_by_origin m (map (fun j => (nth j (m_cols m) 0%Z, Fin (f j))) (seq 0 n)) =
  Ok (flat_map (fun i =>
      let c := n - 1 - i in
      let r k := (C i k * f k - C i (S k))%Qc in
      map (fun k => mkResid (nth (S k) (m_cols m) 0%Z) (Fin (r k)) (Fin (code_sigma2 c r)) (Fin (code_scale2 c r))
                      (nth i (m_idx m) 0%Z)) (seq 0 c))
    (seq 0 (n - 1))).
Proof. intros m n C f Hr Hn. exact (by_origin m n C f Hr Hn). Qed.
Print Assumptions C49_residuals_by_origin_partial.

(** The scale: for no vector of two or more residuals is the code's [sigma], or the divisor
    of the standardised residuals, the sample standard deviation; both are smaller.  When
    the residuals' mean square is below 1, [sigma] is the root of a negative number and the
    standardised residuals are NaN. *)
Theorem C49_scale_refuted : forall (c : nat) (r : nat -> Qc), 2 <= c ->
  (code_sigma2 c r < sample_var c r)%Qc /\ (code_scale2 c r < sample_var c r)%Qc /\
  ((code_sigma2 c r < 0)%Qc <-> (sumf 0 c (fun k => r k * r k) < qn c)%Qc).
Proof.
  intros c r Hc. split; [exact (never c r Hc)|]. split; [exact (never_scale c r Hc)|].
  apply small. lia.
Qed.
Print Assumptions C49_scale_refuted.

(** The 4x4 example: residuals of the first transition for the factor 2. *)
Example C49_nonvacuous : regular ex_m 4 ex_C /\
  match residuals_by_devp ex_m (map (fun j => (nth j (m_cols ex_m) 0%Z, vz 2)) (seq 0 4)) with
  | Ok l => map z_key l = [2001; 2002; 2003; 2001; 2002]%Z /\
            vlistb (map z_res (firstn 3 l)) (map (fun i => Fin (ex_C i 0 * qz 2 - ex_C i 1)%Qc) (seq 0 3)) = true
  | Err _ => False
  end.
Proof. split; [exact ex_regular|]. vm_compute. split; reflexivity. Qed.
