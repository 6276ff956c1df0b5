(** Mack's chain ladder: C28-C33, C50. *)

From Coq Require Import String Ascii QArith Qcanon ZArith List Bool Lia Permutation Sorting.Sorted.
From Verif Require Import Val Frame Triangle A2A Base Mack QcLib Spec ExTri ExMack MackClaims2 MackClaims3.
Import ListNotations.
Open Scope list_scope.
Open Scope nat_scope.

(** ** C28.  With all link ratios included, mack_cl with alpha = 1 (alpha = 0) returns
    the factors, summary rows (ultimates, reserves, ...), totals and squared triangle
    of base_cl "all-weighted" ("all-simple"). *)
Theorem C28_mack_point_estimates_are_chain_ladder :
  forall (gm : list val -> val) (m : lmat) (n : nat) (C : nat -> nat -> Qc) (v : string) (cl : list nat) (tail : val),
  regular m n C -> positive n C -> 3 < n -> tail_fits (m_cols m) -> clvi m = Ok cl ->
  forall alpha label, (alpha, label) = (1, "all-weighted"%string) \/ (alpha, label) = (0, "all-simple"%string) ->
  exists r k, base_cl gm (mkTri m "origin" "dev" v) cl (a2aind_init m) (SelLabel label) (Fin 1%Qc) = (SelLabel label, Ok r) /\
    mack_cl (mkTri m "origin" "dev" v) cl (a2aind_init m) alpha tail = Ok k /\
    c_ldfs (k_cl k) = c_ldfs r /\ c_rows (k_cl k) = c_rows r /\ c_total (k_cl k) = c_total r /\
    c_trisqrd (k_cl k) = c_trisqrd r.
Proof. exact c28. Qed.
Print Assumptions C28_mack_point_estimates_are_chain_ladder.

Example C28_nonvacuous : regular ex_m 4 ex_C /\ positive 4 ex_C /\ tail_fits (m_cols ex_m) /\
  clvi ex_m = Ok [3; 2; 1; 0] /\
  map s_reserve (c_rows (k_cl ex_k)) <> map (fun _ => vz 0) (c_rows (k_cl ex_k)).
Proof.
  split; [apply ex_regular|]. split; [apply ex_positive|]. split; [apply ex_spaced|]. split; [apply ex_clvi|].
  vm_compute. discriminate.
Qed.

(** ** C29.  Factors for any natural alpha and any weights (a2aind values). *)
Theorem C29_alpha_weighted_factors :
  forall (m : lmat) (n : nat) (C : nat -> nat -> Qc) (ind : list (list val)) (W : nat -> nat -> Qc) (alpha : nat)
         (v : string) (cl : list nat) (tail : val),
  regular m n C -> positive n C -> 3 < n -> tail_fits (m_cols m) -> clvi m = Ok cl -> weights ind n W ->
  exists k, mack_cl (mkTri m "origin" "dev" v) cl ind alpha tail = Ok k /\
    c_ldfs (k_cl k) = map (fun j => (nth j (m_cols m) 0%Z,
      Fin (if S j <? n then
             sumf 0 (n - 1 - j) (fun i => W i j * C i j ^ alpha * (C i (S j) / C i j))
             / sumf 0 (n - 1 - j) (fun i => W i j * C i j ^ alpha)
           else 1)%Qc)) (seq 0 n).
Proof. exact c29. Qed.
Print Assumptions C29_alpha_weighted_factors.

(** 0/1 indicators: the average runs over the included link ratios only, so excluded
    ones have no influence. *)
Theorem C29_excluded_ratios_have_no_influence :
  forall (m : lmat) (n : nat) (C : nat -> nat -> Qc) (ind : list (list val)) (w : nat -> nat -> bool) (alpha : nat)
         (v : string) (cl : list nat) (tail : val),
  regular m n C -> positive n C -> 3 < n -> tail_fits (m_cols m) -> clvi m = Ok cl ->
  weights ind n (fun i j => if w i j then 1 else 0)%Qc ->
  exists k, mack_cl (mkTri m "origin" "dev" v) cl ind alpha tail = Ok k /\
    c_ldfs (k_cl k) = map (fun j => (nth j (m_cols m) 0%Z,
      Fin (if S j <? n then
             let kept := filter (fun i => w i j) (seq 0 (n - 1 - j)) in
             qsum (map (fun i => C i j ^ alpha * (C i (S j) / C i j)) kept) / qsum (map (fun i => C i j ^ alpha) kept)
           else 1)%Qc)) (seq 0 n).
Proof. exact c29_indicator. Qed.
Print Assumptions C29_excluded_ratios_have_no_influence.

(** alpha = 2: the factor is the least-squares slope. *)
Theorem C29_alpha_2_least_squares :
  forall (n : nat) (C W : nat -> nat -> Qc) (j : nat) (g : Qc), j < n - 1 ->
  (forall i, i + j < n - 1 -> (0 <= W i j)%Qc) ->
  (0 < sumf 0 (n - 1 - j) (fun i => W i j * C i j ^ 2))%Qc ->
  (forall i, i + j < n - 1 -> (0 < C i j)%Qc) ->
  let f := (sumf 0 (n - 1 - j) (fun i => W i j * C i j ^ 2 * (C i (S j) / C i j))
             / sumf 0 (n - 1 - j) (fun i => W i j * C i j ^ 2))%Qc in
  (sumf 0 (n - 1 - j) (fun i => W i j * ((C i (S j) - f * C i j) * (C i (S j) - f * C i j)))
   <= sumf 0 (n - 1 - j) (fun i => W i j * ((C i (S j) - g * C i j) * (C i (S j) - g * C i j))))%Qc.
Proof. exact c29_least_squares. Qed.
Print Assumptions C29_alpha_2_least_squares.

Example C29_nonvacuous : regular ex_m 4 ex_C /\ weights ex_ind 4 (fun i j => if ex_w i j then 1 else 0)%Qc /\
  ex_w 1 0 = false /\
  match mack_cl (mkTri ex_m "origin" "dev" "value") [3; 2; 1; 0] ex_ind 2 (vz 1) with
  | Ok k => hd (0%Z, NaN) (c_ldfs (k_cl k)) = (12%Z, Fin (qz 25800 / qz 18100)%Qc)
  | Err _ => False
  end.
Proof.
  split; [apply ex_regular|]. split; [apply ex_ind_weights|]. split; vm_compute; reflexivity.
Qed.

(** ** C30.  [projected n C f i j] is the loss of origin i developed to period j. *)
Theorem C30_process_error_is_macks_formula :
  forall (m : lmat) (n : nat) (C : nat -> nat -> Qc),
  regular m n C -> positive n C -> 3 < n -> tail_fits (m_cols m) ->
  forall cl, clvi m = Ok cl ->
  forall (ind : list (list val)) (W : nat -> nat -> Qc), weights ind n W ->
  forall (alpha : nat) (v : string) (tail : val) (k : mack_result),
  mack_cl (mkTri m "origin" "dev" v) cl ind alpha tail = Ok k ->
  forall f s : nat -> Qc,
  c_ldfs (k_cl k) = map (fun j => (nth j (m_cols m) 0%Z, Fin (f j))) (seq 0 n) ->
  k_devpvar k = map (fun j => (nth j (m_cols m) 0%Z, Fin (s j))) (seq 0 (n - 1)) ->
  forall i, i < n ->
  nth i (k_proc k) NaN =
    Fin (projected n C f i (n - 1) * projected n C f i (n - 1)
         * sumf (n - 1 - i) i (fun j => s j / (f j * f j) / projected n C f i j))%Qc.
Proof. exact c30. Qed.
Print Assumptions C30_process_error_is_macks_formula.

Example C30_nonvacuous : regular ex_m 4 ex_C /\ positive 4 ex_C /\ weights (a2aind_init ex_m) 4 (fun _ _ => 1%Qc) /\
  mack_cl (mkTri ex_m "origin" "dev" "value") [3; 2; 1; 0] (a2aind_init ex_m) 1 (vz 1) = Ok ex_k /\
  c_ldfs (k_cl ex_k) = map (fun j => (nth j (m_cols ex_m) 0%Z, Fin (ex_f j))) (seq 0 4) /\
  k_devpvar ex_k = map (fun j => (nth j (m_cols ex_m) 0%Z, Fin (ex_s j))) (seq 0 3) /\
  forallb (fun j => qcltb 0 (ex_s j)) (seq 0 3) = true /\ vltb (vz 0) (nth 3 (k_proc ex_k) NaN) = true.
Proof.
  split; [apply ex_regular|]. split; [apply ex_positive|]. split; [apply ex_weights|].
  split; [apply ex_k_ok|]. split; [apply ex_k_ldfs|]. split; [apply ex_k_devpvar|]. split; vm_compute; reflexivity.
Qed.

(** ** C31. *)
Theorem C31_parameter_error_closed_form :
  forall (m : lmat) (n : nat) (C : nat -> nat -> Qc),
  regular m n C -> positive n C -> 3 < n -> tail_fits (m_cols m) ->
  forall cl, clvi m = Ok cl ->
  forall (ind : list (list val)) (W : nat -> nat -> Qc), weights ind n W ->
  forall (alpha : nat) (v : string) (tail : val) (k : mack_result),
  mack_cl (mkTri m "origin" "dev" v) cl ind alpha tail = Ok k ->
  forall f u : nat -> Qc,
  c_ldfs (k_cl k) = map (fun j => (nth j (m_cols m) 0%Z, Fin (f j))) (seq 0 n) ->
  k_ldfvar k = map (fun j => (nth j (m_cols m) 0%Z, Fin (u j))) (seq 0 (n - 1)) ->
  forall i, i < n ->
  nth i (k_param k) NaN =
    Fin (C i (n - 1 - i)%nat * C i (n - 1 - i)%nat
         * (prodf (n - 1 - i) i (fun j => f j * f j + u j) - prodf (n - 1 - i) i (fun j => f j * f j)))%Qc.
Proof. exact c31. Qed.
Print Assumptions C31_parameter_error_closed_form.

Example C31_nonvacuous :
  mack_cl (mkTri ex_m "origin" "dev" "value") [3; 2; 1; 0] (a2aind_init ex_m) 1 (vz 1) = Ok ex_k /\
  c_ldfs (k_cl ex_k) = map (fun j => (nth j (m_cols ex_m) 0%Z, Fin (ex_f j))) (seq 0 4) /\
  k_ldfvar ex_k = map (fun j => (nth j (m_cols ex_m) 0%Z, Fin (ex_u j))) (seq 0 3) /\
  vltb (vz 0) (nth 3 (k_param ex_k) NaN) = true.
Proof. split; [apply ex_k_ok|]. split; [apply ex_k_ldfs|]. split; [apply ex_k_ldfvar|]. vm_compute; reflexivity. Qed.

(** ** C32.  The variance parameters; [x] is the extrapolated last one.  The last case
    shows what is missing: when the two preceding estimates are both 0 it is NaN. *)
Theorem C32_variances_partial :
  forall (m : lmat) (n : nat) (C : nat -> nat -> Qc),
  regular m n C -> positive n C -> 3 < n -> tail_fits (m_cols m) ->
  forall cl, clvi m = Ok cl ->
  forall (ind : list (list val)) (W : nat -> nat -> Qc), weights ind n W ->
  forall (alpha : nat) (v : string) (tail : val) (k : mack_result),
  mack_cl (mkTri m "origin" "dev" v) cl ind alpha tail = Ok k ->
  forall f : nat -> Qc,
  c_ldfs (k_cl k) = map (fun j => (nth j (m_cols m) 0%Z, Fin (f j))) (seq 0 n) ->
  let s2 := sigma2 n C W alpha f in
  exists x, k_devpvar k =
      map (fun j => (nth j (m_cols m) 0%Z, if j <? n - 2 then Fin (s2 j) else x)) (seq 0 (n - 1)) /\
    (forall j, j < n - 2 -> (0 <= s2 j)%Qc) /\
    ((0 < s2 (n - 4)%nat)%Qc ->
       x = Fin (qmin (s2 (n - 3)%nat * s2 (n - 3)%nat / s2 (n - 4)%nat) (qmin (s2 (n - 3)%nat) (s2 (n - 4)%nat)))%Qc) /\
    (s2 (n - 4) = 0%Qc -> (0 < s2 (n - 3)%nat)%Qc -> x = Fin 0%Qc) /\
    (s2 (n - 4) = 0%Qc -> s2 (n - 3) = 0%Qc -> x = NaN) /\
    k_ldfvar k = map (fun p => (snd p, vdiv (snd (nth (fst p) (k_devpvar k) (0%Z, NaN)))
       (Fin (sumf 0 (n - 1 - fst p) (fun i => W i (fst p) * C i (fst p) ^ alpha)%Qc)))) (combine (seq 0 (n - 1)) (m_cols m)).
Proof. exact c32_devpvar. Qed.
Print Assumptions C32_variances_partial.

(** Process error, parameter error and mse are numbers, not negative, and 0 for the
    oldest origin, whatever the data. *)
Theorem C32_errors_not_negative :
  forall (m : lmat) (n : nat) (C : nat -> nat -> Qc),
  regular m n C -> positive n C -> 3 < n -> tail_fits (m_cols m) ->
  forall cl, clvi m = Ok cl ->
  forall (ind : list (list val)) (W : nat -> nat -> Qc), weights ind n W ->
  forall (alpha : nat) (v : string) (tail : val) (k : mack_result),
  mack_cl (mkTri m "origin" "dev" v) cl ind alpha tail = Ok k ->
  exists p q,
    k_proc k = map (fun i => Fin (p i)) (seq 0 n) /\ k_param k = map (fun i => Fin (q i)) (seq 0 n) /\
    k_mse k = map (fun i => Fin (p i + q i)%Qc) (seq 0 n) /\
    (forall i, i < n -> (0 <= p i)%Qc /\ (0 <= q i)%Qc) /\ p 0 = 0%Qc /\ q 0 = 0%Qc.
Proof. exact c32_nonneg. Qed.
Print Assumptions C32_errors_not_negative.

(** If the last two estimated variances are 0, all errors are reported as 0. *)
Theorem C32_degenerate_variances :
  forall (m : lmat) (n : nat) (C : nat -> nat -> Qc),
  regular m n C -> positive n C -> 3 < n -> tail_fits (m_cols m) ->
  forall cl, clvi m = Ok cl ->
  forall (ind : list (list val)) (W : nat -> nat -> Qc), weights ind n W ->
  forall (alpha : nat) (v : string) (tail : val) (k : mack_result),
  mack_cl (mkTri m "origin" "dev" v) cl ind alpha tail = Ok k ->
  forall f : nat -> Qc,
  c_ldfs (k_cl k) = map (fun j => (nth j (m_cols m) 0%Z, Fin (f j))) (seq 0 n) ->
  sigma2 n C W alpha f (n - 4) = 0%Qc -> sigma2 n C W alpha f (n - 3) = 0%Qc ->
  k_proc k = map (fun _ => Fin 0%Qc) (seq 0 n) /\ k_param k = map (fun _ => Fin 0%Qc) (seq 0 n) /\
  k_mse k = map (fun _ => Fin 0%Qc) (seq 0 n) /\ k_mse_total k = Fin 0%Qc.
Proof. exact c32_nan. Qed.
Print Assumptions C32_degenerate_variances.

(** Such a triangle, in which the first variance is positive. *)
Theorem C32_last_variance_refuted :
  regular dev_m 5 dev_C /\ positive 5 dev_C /\
  mack_cl (mkTri dev_m "origin" "dev" "value") [4; 3; 2; 1; 0] (a2aind_init dev_m) 1 (vz 1) = Ok dev_k /\
  vltb (vz 0) (snd (nth 0 (k_devpvar dev_k) (0%Z, NaN))) = true /\
  snd (nth 3 (k_devpvar dev_k) (0%Z, vz 0)) = NaN /\
  snd (nth 3 (k_ldfvar dev_k) (0%Z, vz 0)) = NaN /\
  k_mse dev_k = [vz 0; vz 0; vz 0; vz 0; vz 0] /\ k_mse_total dev_k = vz 0.
Proof.
  split; [apply dev_regular|]. split; [apply dev_positive|].
  do 5 (split; [vm_compute; reflexivity|]). vm_compute; reflexivity.
Qed.
Print Assumptions C32_last_variance_refuted.

Example C32_nonvacuous :
  regular ex_m 4 ex_C /\ weights (a2aind_init ex_m) 4 (fun _ _ => 1%Qc) /\
  mack_cl (mkTri ex_m "origin" "dev" "value") [3; 2; 1; 0] (a2aind_init ex_m) 1 (vz 1) = Ok ex_k /\
  c_ldfs (k_cl ex_k) = map (fun j => (nth j (m_cols ex_m) 0%Z, Fin (ex_f j))) (seq 0 4) /\
  qcltb 0 (sigma2 4 ex_C (fun _ _ => 1%Qc) 1 ex_f (4 - 4)) = true.
Proof.
  split; [apply ex_regular|]. split; [apply ex_weights|]. split; [apply ex_k_ok|]. split; [apply ex_k_ldfs|].
  vm_compute; reflexivity.
Qed.

(** ** C33. *)
Theorem C33_total_mse_is_macks_formula :
  forall (m : lmat) (n : nat) (C : nat -> nat -> Qc),
  regular m n C -> positive n C -> 3 < n -> tail_fits (m_cols m) ->
  forall cl, clvi m = Ok cl ->
  forall (ind : list (list val)) (W : nat -> nat -> Qc), weights ind n W ->
  forall (alpha : nat) (v : string) (tail : val) (k : mack_result),
  mack_cl (mkTri m "origin" "dev" v) cl ind alpha tail = Ok k ->
  forall f s : nat -> Qc,
  c_ldfs (k_cl k) = map (fun j => (nth j (m_cols m) 0%Z, Fin (f j))) (seq 0 n) ->
  k_devpvar k = map (fun j => (nth j (m_cols m) 0%Z, Fin (s j))) (seq 0 (n - 1)) ->
  forall e : nat -> Qc,
  k_mse k = map (fun i => Fin (e i)) (seq 0 n) ->
  k_mse_total k =
    Fin (sumf 1 (n - 1) (fun i => e i
      + qz 2 * projected n C f i (n - 1) * sumf (S i) (n - 1 - i) (fun l => projected n C f l (n - 1))
        * sumf (n - 1 - i) i (fun j => s j / (f j * f j) / sumf 0 (n - 1 - j) (fun l => C l j))))%Qc.
Proof. exact c33. Qed.
Print Assumptions C33_total_mse_is_macks_formula.

Theorem C33_total_mse_at_least_sum :
  forall (m : lmat) (n : nat) (C : nat -> nat -> Qc),
  regular m n C -> positive n C -> 3 < n -> tail_fits (m_cols m) ->
  forall cl, clvi m = Ok cl ->
  forall (ind : list (list val)) (W : nat -> nat -> Qc), weights ind n W ->
  forall (alpha : nat) (v : string) (tail : val) (k : mack_result),
  mack_cl (mkTri m "origin" "dev" v) cl ind alpha tail = Ok k ->
  exists e T, k_mse k = map (fun i => Fin (e i)) (seq 0 n) /\ k_mse_total k = Fin T /\
    (forall i, i < n -> (0 <= e i)%Qc) /\ e 0 = 0%Qc /\ (sumf 0 n e <= T)%Qc.
Proof. exact c33_ge. Qed.
Print Assumptions C33_total_mse_at_least_sum.

Example C33_nonvacuous :
  mack_cl (mkTri ex_m "origin" "dev" "value") [3; 2; 1; 0] (a2aind_init ex_m) 1 (vz 1) = Ok ex_k /\
  c_ldfs (k_cl ex_k) = map (fun j => (nth j (m_cols ex_m) 0%Z, Fin (ex_f j))) (seq 0 4) /\
  k_devpvar ex_k = map (fun j => (nth j (m_cols ex_m) 0%Z, Fin (ex_s j))) (seq 0 3) /\
  k_mse ex_k = map (fun i => Fin (ex_e i)) (seq 0 4) /\
  vltb (skipsum (k_mse ex_k)) (k_mse_total ex_k) = true.
Proof.
  split; [apply ex_k_ok|]. split; [apply ex_k_ldfs|]. split; [apply ex_k_devpvar|]. split; [apply ex_k_mse|].
  vm_compute; reflexivity.
Qed.

(** ** C50.  For every triangle on which mack_cl succeeds, the tail factor changes
    nothing but the stored tail. *)
Theorem C50_mack_ignores_tail :
  forall (t : tri) (cl : list nat) (ind : list (list val)) (alpha : nat) (tail tail' : val) (k : mack_result),
  mack_cl t cl ind alpha tail = Ok k ->
  exists k', mack_cl t cl ind alpha tail' = Ok k' /\
    c_ldfs (k_cl k') = c_ldfs (k_cl k) /\ c_rows (k_cl k') = c_rows (k_cl k) /\ c_total (k_cl k') = c_total (k_cl k) /\
    c_trisqrd (k_cl k') = c_trisqrd (k_cl k) /\ k_devpvar k' = k_devpvar k /\ k_ldfvar k' = k_ldfvar k /\
    k_proc k' = k_proc k /\ k_param k' = k_param k /\ k_mse k' = k_mse k /\ k_mse_total k' = k_mse_total k.
Proof. exact c50. Qed.
Print Assumptions C50_mack_ignores_tail.

Example C50_nonvacuous :
  match mack_cl (mkTri ex_m "origin" "dev" "value") [3; 2; 1; 0] ex_ind 1 (vz 5) with
  | Ok k => c_tail (k_cl k) = vz 5 /\ s_ultimate (hd (mkRow 0 0 NaN NaN NaN NaN NaN) (c_rows (k_cl k))) = vz 189
  | Err _ => False
  end.
Proof. vm_compute. split; reflexivity. Qed.
