(** C80: the summary table of Mack's chain ladder; standard errors and coefficients of
    variation by origin and in total. *)

From Coq Require Import String QArith Qcanon Qreals Reals Lra Lia ZArith List Bool.
From Verif Require Import Val Frame Triangle A2A Base Mack QcLib ListLib Spec ExTri ExMack MackClaims2 MackClaims3 Dist DistClaims
  BootSumClaims MackSum MackSumClaims.
Import ListNotations.
Open Scope list_scope.
Open Scope nat_scope.

(** The origins in order and the total; the columns of the chain ladder; standard errors
    are the roots of the mean squared errors, and cv = std_error / reserve wherever the
    reserve is not 0, except that the oldest origin shows NaN.  The total standard error
    is at least that of independent origins and, for the default alpha = 1 with
    indicators at most 1, at most the sum of the standard errors. *)
Theorem C80_mack_summary_table :
  forall (m : lmat) (n : nat) (C : nat -> nat -> Qc),
  regular m n C -> positive n C -> 3 < n -> tail_fits (m_cols m) ->
  forall cl, clvi m = Ok cl ->
  forall (ind : list (list val)) (W : nat -> nat -> Qc), weights ind n W ->
  forall (alpha : nat) (v : string) (tail : val) (k : mack_result),
  mack_cl (mkTri m "origin" "dev" v) cl ind alpha tail = Ok k ->
  exists e T, k_mse k = map (fun i => Fin (e i)) (seq 0 n) /\ k_mse_total k = Fin T /\
  let se i := sqrt (Q2R (e i)) in let se_total := sqrt (Q2R T) in
  map y_origin (mack_table k) = map Some (m_idx m) ++ [None] /\
  map (fun r => (y_maturity r, y_cldf r, y_emergence r)) (mack_table k) =
    map (fun r => (Some (s_maturity r), s_cldf r, s_emergence r)) (c_rows (k_cl k)) ++ [(None, NaN, NaN)] /\
  map (fun r => (y_latest r, y_ultimate r, y_reserve r)) (mack_table k) =
    map (fun r => (s_latest r, s_ultimate r, s_reserve r)) (c_rows (k_cl k)) ++ [c_total (k_cl k)] /\
  map y_std_error (mack_table k) = map (fun i => FR (se i)) (seq 0 n) ++ [FR se_total] /\
  (forall r, In r (mack_table k) -> y_origin r = Some (nth 0 (m_idx m) 0%Z) -> y_std_error r = FR 0 /\ y_cv r = FNaN) /\
  (forall r, In r (mack_table k) -> y_origin r <> Some (nth 0 (m_idx m) 0%Z) ->
     forall x p, y_std_error r = FR x -> y_reserve r = Fin p -> p <> 0%Qc -> y_cv r = FR (x / Q2R p)) /\
  (sqrt (Q2R (sumf 0 n e)) <= se_total)%R /\
  (alpha = 1 -> (forall i j, i + j < n - 1 -> (W i j <= 1)%Qc) -> (se_total <= fold_right Rplus 0 (map se (seq 0 n)))%R).
Proof. exact c80_table. Qed.
Print Assumptions C80_mack_summary_table.

(** Pooling does not add relative uncertainty: if every origin with a forecast has a
    positive reserve and a coefficient of variation of at most c, so has the total. *)
Theorem C80_total_cv_bound :
  forall (m : lmat) (n : nat) (C : nat -> nat -> Qc),
  regular m n C -> positive n C -> 3 < n -> tail_fits (m_cols m) ->
  forall cl, clvi m = Ok cl ->
  forall (ind : list (list val)) (W : nat -> nat -> Qc), weights ind n W ->
  forall (alpha : nat) (v : string) (tail : val) (k : mack_result),
  mack_cl (mkTri m "origin" "dev" v) cl ind alpha tail = Ok k ->
  forall c : R, alpha = 1 -> (forall i j, i + j < n - 1 -> (W i j <= 1)%Qc) ->
  (forall r o, In r (mack_table k) -> y_origin r = Some o -> o <> nth 0 (m_idx m) 0%Z ->
     exists p x, y_reserve r = Fin p /\ (0 < p)%Qc /\ y_cv r = FR x /\ (x <= c)%R) ->
  forall r, In r (mack_table k) -> y_origin r = None -> exists x, y_cv r = FR x /\ (x <= c)%R.
Proof. exact c80_cv_bound. Qed.
Print Assumptions C80_total_cv_bound.

(** With alpha = 2 the total standard error can exceed the sum of the standard errors:
    the covariance terms use the sums of losses (alpha = 1) whatever alpha is. *)
Definition big_rows : list (list Z) :=
  [[20; 50; 60; 70]; [20; 50; 1000; 0]; [30; 1000; 0; 0]; [100; 0; 0; 0]]%Z.
Definition big_C (i j : nat) : Qc := qz (nth j (nth i big_rows []) 0%Z).
Definition big_m : lmat := mkMat [1; 2; 3; 4]%Z [1; 2; 3; 4]%Z
  (map (fun i => map (fun j => if i + j <? 4 then Fin (big_C i j) else NaN) (seq 0 4)) (seq 0 4)).
Definition big_k : mack_result :=
  ok_or no_result (mack_cl (mkTri big_m "origin" "dev" "value") [3; 2; 1; 0] (a2aind_init big_m) 2 (vz 1)).
Lemma big_regular : regular big_m 4 big_C.
Proof.
  repeat split; simpl; auto.
  - repeat constructor.
  - repeat constructor.
  - intros row H. repeat (destruct H as [<-|H]; [reflexivity|]). contradiction.
  - intros i j Hi Hj. do 4 (destruct i as [|i]; [do 4 (destruct j as [|j]; [reflexivity|]); lia|]). lia.
Qed.
Lemma big_positive : positive 4 big_C.
Proof.
  intros i j H. do 4 (destruct i as [|i]; [do 4 (destruct j as [|j]; [vm_compute; reflexivity || (exfalso; lia)|]); lia|]). lia.
Qed.
Lemma big_spaced : tail_fits (m_cols big_m).
Proof.
  split; [intros j Hj; cbn in Hj; do 2 (destruct j as [|j]; [cbn; lia|]); lia|exists 0; cbn; lia].
Qed.

Theorem C80_total_at_most_sum_refuted :
  exists (m : lmat) (n : nat) (C : nat -> nat -> Qc) (cl : list nat) (k : mack_result) (se : nat -> R) (se_total : R),
  regular m n C /\ positive n C /\ 3 < n /\ tail_fits (m_cols m) /\ clvi m = Ok cl /\
  mack_cl (mkTri m "origin" "dev" "value") cl (a2aind_init m) 2 (vz 1) = Ok k /\
  map y_std_error (mack_table k) = map (fun i => FR (se i)) (seq 0 n) ++ [FR se_total] /\
  (fold_right Rplus 0 (map se (seq 0 n)) < se_total)%R.
Proof.
  assert (K : mack_cl (mkTri big_m "origin" "dev" "value") [3; 2; 1; 0] (a2aind_init big_m) 2 (vz 1) = Ok big_k)
    by (vm_compute; reflexivity).
  assert (Dc : clvi big_m = Ok [3; 2; 1; 0]) by (vm_compute; reflexivity).
  assert (HW : weights (a2aind_init big_m) 4 (fun _ _ => 1%Qc)) by (apply (weights_init big_m 4 big_C big_regular big_positive); lia).
  destruct (c80_table big_m 4 big_C big_regular big_positive ltac:(lia) big_spaced _ Dc _ _ HW 2 _ _ big_k K)
    as (e & T & E & Et & _ & _ & _ & Se & _).
  exists big_m, 4, big_C, [3; 2; 1; 0], big_k, (fun i => sqrt (Q2R (e i))), (sqrt (Q2R T)).
  split; [exact big_regular|]. split; [exact big_positive|]. split; [lia|]. split; [exact big_spaced|]. split; [exact Dc|].
  split; [exact K|]. split; [exact Se|].
  assert (N : forall i, i < 4 -> (0 <= e i)%Qc).
  { destruct (c33_ge big_m 4 big_C big_regular big_positive ltac:(lia) big_spaced _ Dc _ _ HW 2 _ _ big_k K) as (e' & _ & E' & _ & P' & _).
    intros i Hi. rewrite E in E'. assert (X := f_equal (fun l => nth i l NaN) E'). cbv beta in X. rewrite !nth_map_seq in X by lia.
    assert (X' : e i = e' i) by (simpl in X; injection X; auto). rewrite X'. apply P'. auto. }
  assert (Lt : (qz 4 * sumf 0 4 e < T)%Qc).
  { assert (B : match k_mse_total big_k with Fin t => qcltb (qz 4 * qsum (map num (k_mse big_k)))%Qc t | _ => false end = true)
      by (vm_compute; reflexivity).
    rewrite E, Et, map_map in B. apply qcltb_lt in B. exact B. }
  assert (Q4 : Q2R (qz 4) = INR 4) by (unfold Q2R; simpl; lra).
  assert (A := roots_le e 4 N). change (rsum 0 4 (fun i => sqrt (Q2R (e i)))) with (fold_right Rplus 0%R (map (fun i => sqrt (Q2R (e i))) (seq 0 4))) in A.
  set (S0 := fold_right Rplus 0%R (map (fun i => sqrt (Q2R (e i))) (seq 0 4))) in *.
  assert (P0 : (0 <= S0)%R) by (apply (rsum_nonneg 0 4); intros; apply sqrt_pos).
  assert (L2 : (Q2R (qz 4 * sumf 0 4 e)%Qc < Q2R T)%R) by (apply Qlt_Rlt; exact Lt).
  rewrite Q2R_mul, Q4 in L2.
  rewrite <- (sqrt_square S0) by exact P0. apply sqrt_lt_1; [nra| |lra].
  assert (Z := Q2R_le _ _ (sumf_nonneg 0 4 e ltac:(intros; apply N; lia))). rewrite Q2R_zero in Z.
  assert (0 <= INR 4)%R by apply pos_INR. nra.
Qed.
Print Assumptions C80_total_at_most_sum_refuted.

(** The example run: three origins with positive reserves and errors. *)
Example C80_nonvacuous :
  regular ex_m 4 ex_C /\ positive 4 ex_C /\ weights (a2aind_init ex_m) 4 (fun _ _ => 1%Qc) /\
  mack_cl (mkTri ex_m "origin" "dev" "value") [3; 2; 1; 0] (a2aind_init ex_m) 1 (vz 1) = Ok ex_k /\
  forallb (fun r => vltb (vz 0) (s_reserve r)) (tl (c_rows (k_cl ex_k))) = true /\
  forallb (vltb (vz 0)) (tl (k_mse ex_k)) = true /\ vltb (skipsum (k_mse ex_k)) (k_mse_total ex_k) = true.
Proof.
  split; [apply ex_regular|]. split; [apply ex_positive|]. split; [apply ex_weights|]. split; [apply ex_k_ok|].
  vm_compute. repeat split; reflexivity.
Qed.
