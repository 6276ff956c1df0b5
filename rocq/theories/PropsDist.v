(** C34: the reserve distributions of Mack's chain ladder. *)

From Coq Require Import String QArith Qcanon Qreals Reals Lra Lia ZArith List Bool.
From Verif Require Import Val Frame Triangle A2A Base Mack QcLib Spec ExTri ExMack MackClaims2 MackClaims3 SpecDist Dist DistClaims.
Import ListNotations.
Open Scope list_scope.
Local Open Scope R_scope.

(** The std_error column of a run on a positive run-off triangle: the square roots of
    the mean squared errors, by origin and for the total. *)
Theorem C34_std_error_column :
  forall (m : lmat) (n : nat) (C : nat -> nat -> Qc),
  regular m n C -> positive n C -> (3 < n)%nat -> tail_fits (m_cols m) ->
  forall cl, clvi m = Ok cl ->
  forall (ind : list (list val)) (W : nat -> nat -> Qc), weights ind n W ->
  forall (alpha : nat) (v : string) (tail : val) (k : mack_result),
  mack_cl (mkTri m "origin" "dev" v) cl ind alpha tail = Ok k ->
  exists e T, k_mse k = map (fun i => Fin (e i)) (seq 0 n) /\ k_mse_total k = Fin T /\
    mack_std_errors k = map (fun i => FR (sqrt (Q2R (e i)))) (seq 0 n) ++ [FR (sqrt (Q2R T))].
Proof.
  intros m n C HR HP Hn HS cl Hcl ind W HW alpha v tail k Hk.
  destruct (c33_ge m n C HR HP Hn HS cl Hcl ind W HW alpha v tail k Hk) as (e & T & E & Et & Pe & _ & L).
  exists e, T. split; [exact E|]. split; [exact Et|]. unfold mack_std_errors. rewrite E, Et, map_map.
  f_equal.
  - apply map_ext_in. intros i Hi. apply in_seq in Hi. apply fsqrt_fin, Pe. lia.
  - f_equal. apply fsqrt_fin. refine (Qcle_trans _ _ _ _ L). apply sumf_nonneg. intros i Hi. apply Pe. lia.
Qed.
Print Assumptions C34_std_error_column.

(** ** C34.  [i] ranges over the rows of the summary, the total being the last one. *)
Theorem C34_normal_is_moment_matched :
  forall (k : mack_result) (i : nat) (reserve std_error : R),
  nth_error (mack_reserves k) i = Some (FR reserve) ->
  nth_error (mack_std_errors k) i = Some (FR std_error) ->
  exists rvs loc scale, mack_rvs "norm" k = Ok rvs /\
    nth_error rvs i = Some (Norm (FR loc) (FR scale)) /\
    mean (normal loc scale) reserve /\
    (0 <= std_error -> std_dev (normal loc scale) std_error).
Proof. exact c34_normal. Qed.
Print Assumptions C34_normal_is_moment_matched.

(** The lognormal is matched from a reserve of 1 upwards. *)
Theorem C34_lognormal_partial :
  forall (k : mack_result) (i : nat) (reserve std_error : R),
  nth_error (mack_reserves k) i = Some (FR reserve) ->
  nth_error (mack_std_errors k) i = Some (FR std_error) ->
  1 <= reserve -> 0 < std_error ->
  exists rvs s scale, mack_rvs "lognorm" k = Ok rvs /\
    nth_error rvs i = Some (Lognorm (FR s) (FR scale)) /\ 0 < s /\ 0 < scale /\
    mean (lognormal s scale) reserve /\ std_dev (lognormal s scale) std_error.
Proof. exact c34_lognormal_matched. Qed.
Print Assumptions C34_lognormal_partial.

(** All positive reserves: the mean is max (reserve, 1) and the coefficient of
    variation std_error / reserve is kept. *)
Theorem C34_lognormal_moments :
  forall (k : mack_result) (i : nat) (reserve std_error : R),
  nth_error (mack_reserves k) i = Some (FR reserve) ->
  nth_error (mack_std_errors k) i = Some (FR std_error) ->
  0 < reserve -> 0 < std_error ->
  exists rvs s scale, mack_rvs "lognorm" k = Ok rvs /\
    nth_error rvs i = Some (Lognorm (FR s) (FR scale)) /\ 0 < s /\ 0 < scale /\
    mean (lognormal s scale) (Rmax reserve 1) /\
    std_dev (lognormal s scale) (Rmax reserve 1 * (std_error / reserve)).
Proof. exact c34_lognormal. Qed.
Print Assumptions C34_lognormal_moments.

(** A triangle in larger units: ex_m divided by 1000. *)
Definition small_m : lmat := mkMat (m_idx ex_m) (m_cols ex_m)
  (map (map (fun v => vdiv v (vz 1000))) (m_cells ex_m)).
Definition small_k : mack_result :=
  ok_or no_result (mack_cl (mkTri small_m "origin" "dev" "value") [3; 2; 1; 0]%nat (a2aind_init small_m) 1 (vz 1)).
Definition small_C (i j : nat) : Qc := num (cell (m_cells small_m) i j).
Definition some_q (o : option val) : option Q := match o with Some (Fin q) => Some (this q) | _ => None end.
Lemma some_q_fin o q : some_q o = Some q -> exists x : Qc, o = Some (Fin x) /\ this x = q.
Proof. destruct o as [[| | |x]|]; try discriminate. intro H. exists x. split; [reflexivity|]. injection H; auto. Qed.

Lemma some_q_val v q : some_q (Some v) = Some q -> exists x : Qc, v = Fin x /\ this x = q.
Proof. destruct v as [| | |x]; try discriminate. intro H. exists x. split; [reflexivity|]. injection H; auto. Qed.

Lemma small_regular : regular small_m 4 small_C.
Proof.
  repeat split; simpl; auto.
  - repeat constructor.
  - repeat constructor.
  - intros row H. repeat (destruct H as [<-|H]; [reflexivity|]). contradiction.
  - intros i j Hi Hj. do 4 (destruct i as [|i]; [do 4 (destruct j as [|j]; [reflexivity|]); lia|]). lia.
Qed.
Lemma small_positive : positive 4 small_C.
Proof.
  intros i j H. do 4 (destruct i as [|i]; [do 4 (destruct j as [|j]; [first [reflexivity|lia]|]); lia|]). lia.
Qed.

(** Below a reserve of 1 it is not: for a run of mack_cl on a 4x4 triangle with
    all-positive losses, the fitted mean is not the reserve. *)
Theorem C34_lognormal_refuted :
  exists (m : lmat) (n : nat) (C : nat -> nat -> Qc) (cl : list nat) (k : mack_result) (i : nat) (reserve std_error : R)
         (rvs : list rv) (s scale : R),
  regular m n C /\ positive n C /\ clvi m = Ok cl /\
  mack_cl (mkTri m "origin" "dev" "value") cl (a2aind_init m) 1 (vz 1) = Ok k /\
  nth_error (mack_reserves k) i = Some (FR reserve) /\
  nth_error (mack_std_errors k) i = Some (FR std_error) /\
  0 < reserve /\ 0 < std_error /\
  mack_rvs "lognorm" k = Ok rvs /\
  nth_error rvs i = Some (Lognorm (FR s) (FR scale)) /\
  ~ mean (lognormal s scale) reserve.
Proof.
  assert (R : some_q (nth_error (map s_reserve (c_rows (k_cl small_k))) 1) = Some (1 # 100)%Q)
    by (vm_compute; reflexivity).
  assert (E : some_q (nth_error (k_mse small_k) 1) = Some (2058 # 80371225)%Q)
    by (vm_compute; reflexivity).
  apply some_q_fin in R. apply some_q_fin in E.
  destruct R as (r & R & Rv). destruct E as (e & E & Ev).
  apply reserves_row in R. apply std_errors_row in E; [|unfold Qcle; rewrite Ev; discriminate].
  rewrite Rv in R. rewrite Ev in E.
  assert (Pe : 0 < sqrt (Q2R (2058 # 80371225))).
  { apply sqrt_lt_R0. rewrite <- RMicromega.Q2R_0. apply Q2R_gt. reflexivity. }
  assert (Pr : 0 < Q2R (1 # 100) < 1) by (unfold Q2R; simpl; lra).
  destruct (c34_unmatched small_k 1 _ _ R E Pr Pe) as (rvs & s & c & A & B & D).
  exists small_m, 4%nat, small_C, [3; 2; 1; 0]%nat, small_k, 1%nat, (Q2R (1 # 100)),
    (sqrt (Q2R (2058 # 80371225))), rvs, s, c.
  split; [exact small_regular|]. split; [exact small_positive|].
  split; [vm_compute; reflexivity|]. split; [vm_compute; reflexivity|].
  tauto.
Qed.
Print Assumptions C34_lognormal_refuted.

Theorem C34_unknown_distribution :
  forall (k : mack_result) (dist : string), dist <> "norm"%string -> dist <> "lognorm"%string ->
  mack_rvs dist k = Err ValueError.
Proof. exact c34_bad_dist. Qed.
Print Assumptions C34_unknown_distribution.

Example C34_nonvacuous :
  (exists e, nth_error (mack_reserves ex_k) 1 = Some (FR 10) /\
     nth_error (mack_std_errors ex_k) 1 = Some (FR e) /\ 1 <= 10 /\ 0 < e) /\
  (exists r e, nth_error (mack_reserves ex_k) 4 = Some (FR r) /\
     nth_error (mack_std_errors ex_k) 4 = Some (FR e) /\ 1 <= r /\ 0 < e).
Proof.
  split.
  - assert (R : some_q (nth_error (map s_reserve (c_rows (k_cl ex_k))) 1) = Some (10 # 1)%Q)
      by (vm_compute; reflexivity).
    assert (E : some_q (nth_error (k_mse ex_k) 1) = Some (82320000 # 3214849)%Q)
      by (vm_compute; reflexivity).
    apply some_q_fin in R. apply some_q_fin in E.
    destruct R as (r & R & Rv). destruct E as (e & E & Ev).
    apply reserves_row in R. apply std_errors_row in E; [|unfold Qcle; rewrite Ev; discriminate].
    rewrite Rv in R. rewrite Ev in E. eexists.
    split; [rewrite R; do 2 f_equal; unfold Q2R; simpl; lra|]. split; [exact E|]. split; [lra|].
    apply sqrt_lt_R0. rewrite <- RMicromega.Q2R_0. apply Q2R_gt. reflexivity.
  - assert (R : some_q (Some (snd (c_total (k_cl ex_k)))) = Some (233767 # 1630)%Q)
      by (vm_compute; reflexivity).
    assert (E : exists q, some_q (Some (k_mse_total ex_k)) = Some q /\ (0 < q)%Q)
      by (eexists; split; vm_compute; reflexivity).
    destruct E as (q & E & Q0).
    apply some_q_val in R. apply some_q_val in E.
    destruct R as (r & R & Rv). destruct E as (e & E & Ev).
    apply reserves_total in R. apply std_errors_total in E;
      [|unfold Qcle; rewrite Ev; apply Qlt_le_weak, Q0].
    rewrite Rv in R. rewrite Ev in E. eexists. eexists.
    split; [exact R|]. split; [exact E|]. split.
    + unfold Q2R; simpl; lra.
    + apply sqrt_lt_R0. rewrite <- RMicromega.Q2R_0. apply Q2R_gt. exact Q0.
Qed.
