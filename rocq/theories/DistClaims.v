(** Proofs of the distribution claims. *)

From Coq Require Import String QArith Qcanon Qreals Reals Lra Psatz List Bool.
From Coquelicot Require Import Coquelicot.
From Verif Require Import Val Frame Triangle A2A Base Mack SpecDist Gauss Dist.
Import ListNotations.
Open Scope list_scope.
Local Open Scope R_scope.

(** * Moments of the two families *)

Lemma line_val : forall f a b, a = b -> line f a -> line f b.
Proof. intros f a b <-. trivial. Qed.

Lemma normal_mean : forall l s, mean (normal l s) l.
Proof.
  intros l s. unfold mean, normal.
  apply (line_ext (fun z => l * phi z + s * (z * phi z))); [intro; ring|].
  apply (line_val _ (l * 1 + s * 0)); [ring|].
  apply line_plus; [apply (line_scal phi), line_phi|
    apply (line_scal (fun z => z * phi z)), line_zphi].
Qed.

Lemma normal_sd : forall l s, 0 <= s -> std_dev (normal l s) s.
Proof.
  intros l s L. split; [exact L|]. exists l. split; [apply normal_mean|].
  unfold normal. apply (line_ext (fun z => (s * s) * (z * z * phi z))); [intro; ring|].
  apply (line_val _ (s * s * 1)); [ring|].
  apply (line_scal (fun z => z * z * phi z)), line_zzphi.
Qed.

Lemma lognormal_mean : forall s c, mean (lognormal s c) (c * exp (s * s / 2)).
Proof.
  intros s c. unfold mean, lognormal.
  apply (line_ext (fun z => c * (exp (s * z) * phi z))); [intro; ring|].
  apply (line_scal (fun z => exp (s * z) * phi z)), line_mgf.
Qed.

Lemma lognormal_var : forall s c m, m = c * exp (s * s / 2) ->
  line (fun z => (lognormal s c z - m) * (lognormal s c z - m) * phi z)
       (c * c * exp (s * s) * (exp (s * s) - 1)).
Proof.
  intros s c m E. unfold lognormal.
  apply (line_ext (fun z => c * c * (exp (2 * s * z) * phi z)
           + ((- 2 * m * c) * (exp (s * z) * phi z) + m * m * phi z))).
  { intro z. replace (2 * s * z) with (s * z + s * z) by ring.
    rewrite exp_plus. ring. }
  replace (c * c * exp (s * s) * (exp (s * s) - 1))
    with (c * c * exp ((2 * s) * (2 * s) / 2)
          + ((- 2 * m * c) * exp (s * s / 2) + m * m * 1)).
  - apply line_plus; [apply (line_scal (fun z => exp (2 * s * z) * phi z)), line_mgf|].
    apply line_plus; [apply (line_scal (fun z => exp (s * z) * phi z)), line_mgf|].
    apply (line_scal phi), line_phi.
  - rewrite E. replace (2 * s * (2 * s) / 2) with (s * s + s * s) by field.
    assert (Q : exp (s * s) = exp (s * s / 2) * exp (s * s / 2))
      by (rewrite <- exp_plus; f_equal; field).
    rewrite exp_plus, Q. ring.
Qed.

Lemma lognormal_sd : forall s c d, 0 <= d ->
  d * d = c * c * exp (s * s) * (exp (s * s) - 1) -> std_dev (lognormal s c) d.
Proof.
  intros s c d L E. split; [exact L|]. exists (c * exp (s * s / 2)).
  split; [apply lognormal_mean|]. rewrite E. apply lognormal_var. reflexivity.
Qed.

Lemma mean_unique : forall X a b, mean X a -> mean X b -> a = b.
Proof. intros X a b. apply line_unique. Qed.

(** * The fitted parameters *)

(** sqrt (log (1 + (e/r)^2)) *)
Definition sg (r e : R) : R := sqrt (ln (1 + e / r * (e / r))).

Lemma ratio_pos : forall r e, 0 < r -> 0 < e -> 0 < e / r * (e / r).
Proof.
  intros r e Hr He. assert (0 < e / r) by (apply Rdiv_lt_0_compat; lra). nra.
Qed.

Lemma ln_ratio_pos : forall r e, 0 < r -> 0 < e -> 0 < ln (1 + e / r * (e / r)).
Proof.
  intros r e Hr He. rewrite <- ln_1. apply ln_increasing; [lra|].
  pose proof (ratio_pos r e Hr He). lra.
Qed.

Lemma sg_pos : forall r e, 0 < r -> 0 < e -> 0 < sg r e.
Proof. intros r e Hr He. apply sqrt_lt_R0, ln_ratio_pos; assumption. Qed.

Lemma sg_sq : forall r e, 0 < r -> 0 < e -> sg r e * sg r e = ln (1 + e / r * (e / r)).
Proof.
  intros r e Hr He. apply sqrt_sqrt. apply Rlt_le, ln_ratio_pos; assumption.
Qed.

Lemma exp_sg_sq : forall r e, 0 < r -> 0 < e -> exp (sg r e * sg r e) = 1 + e / r * (e / r).
Proof.
  intros r e Hr He. rewrite sg_sq by assumption. apply exp_ln.
  pose proof (ratio_pos r e Hr He). lra.
Qed.

Lemma fit_lognorm_pos : forall r e, 0 < r -> 0 < e ->
  fit_lognorm (FR r) (FR e)
  = Lognorm (FR (sg r e)) (FR (exp (Rmax (ln r) 0 - 1 / 2 * (sg r e * sg r e)))).
Proof.
  intros r e Hr He. unfold fit_lognorm.
  assert (S1 : fnan0 (fsqrt (flog (fadd 1 (fsq (fdiv (FR e) (FR r)))))) = FR (sg r e)).
  { cbn [fdiv]. destruct (Req_EM_T r 0); [lra|]. cbn [fsq fadd flog].
    pose proof (ratio_pos r e Hr He).
    destruct (Rlt_dec (1 + e / r * (e / r)) 0); [lra|].
    destruct (Req_EM_T (1 + e / r * (e / r)) 0); [lra|].
    cbn [fsqrt]. pose proof (ln_ratio_pos r e Hr He).
    destruct (Rlt_dec (ln (1 + e / r * (e / r))) 0); [lra|]. reflexivity. }
  rewrite S1. cbn [fsq fscal flog].
  destruct (Rlt_dec r 0); [lra|]. destruct (Req_EM_T r 0); [lra|]. reflexivity.
Qed.

Lemma ln_ge_0 : forall r, 1 <= r -> Rmax (ln r) 0 = ln r.
Proof.
  intros r L. apply Rmax_left. destruct (Req_dec r 1) as [->|N]; [rewrite ln_1; lra|].
  rewrite <- ln_1. left. apply ln_increasing; lra.
Qed.

Lemma ln_le_0 : forall r, 0 < r -> r < 1 -> Rmax (ln r) 0 = 0.
Proof.
  intros r L H. apply Rmax_right. rewrite <- ln_1. left. apply ln_increasing; lra.
Qed.

(** The law fitted to (r, e) has mean M and standard deviation M e / r, where M is
    r when r >= 1 and 1 otherwise. *)
Lemma fitted_moments : forall r e a, 0 < r -> 0 < e ->
  let X := lognormal (sg r e) (exp (a - 1 / 2 * (sg r e * sg r e))) in
  mean X (exp a) /\ std_dev X (exp a * (e / r)).
Proof.
  intros r e a Hr He X.
  assert (Em : exp (a - 1 / 2 * (sg r e * sg r e)) * exp (sg r e * sg r e / 2) = exp a).
  { rewrite <- exp_plus. f_equal. field. }
  split.
  - rewrite <- Em. apply lognormal_mean.
  - apply lognormal_sd.
    + apply Rmult_le_pos; [apply Rlt_le, exp_pos|].
      apply Rlt_le, Rdiv_lt_0_compat; lra.
    + set (c := exp (a - 1 / 2 * (sg r e * sg r e))) in *.
      assert (E2 : c * c * exp (sg r e * sg r e) = exp a * exp a).
      { rewrite <- Em.
        replace (exp (sg r e * sg r e))
          with (exp (sg r e * sg r e / 2) * exp (sg r e * sg r e / 2)).
        - ring.
        - rewrite <- exp_plus. f_equal. field. }
      rewrite E2, exp_sg_sq by assumption. ring.
Qed.

(** * Rows of the result *)

Lemma combine_nth_error : forall (A B : Type) (l : list A) (l' : list B) i a b,
  nth_error l i = Some a -> nth_error l' i = Some b ->
  nth_error (combine l l') i = Some (a, b).
Proof.
  induction l as [|x l IH]; intros l' i a b Ha Hb; destruct i, l'; simpl in *;
    try discriminate.
  - congruence.
  - apply IH; assumption.
Qed.

Lemma rvs_nth : forall (f : fl -> fl -> rv) k i r e,
  nth_error (mack_reserves k) i = Some r -> nth_error (mack_std_errors k) i = Some e ->
  nth_error (map (fun p => f (fst p) (snd p)) (combine (mack_reserves k) (mack_std_errors k))) i
  = Some (f r e).
Proof.
  intros f k i r e Hr He. rewrite nth_error_map.
  rewrite (combine_nth_error _ _ _ _ _ _ _ Hr He). reflexivity.
Qed.

Lemma c34_normal : forall k i r e,
  nth_error (mack_reserves k) i = Some (FR r) ->
  nth_error (mack_std_errors k) i = Some (FR e) ->
  exists rvs l s, mack_rvs "norm" k = Ok rvs /\
    nth_error rvs i = Some (Norm (FR l) (FR s)) /\
    mean (normal l s) r /\ (0 <= e -> std_dev (normal l s) e).
Proof.
  intros k i r e Hr He. eexists. exists r, e. split; [reflexivity|].
  split; [apply (rvs_nth fit_norm); assumption|].
  split; [apply normal_mean|apply normal_sd].
Qed.

Lemma c34_lognormal : forall k i r e,
  nth_error (mack_reserves k) i = Some (FR r) ->
  nth_error (mack_std_errors k) i = Some (FR e) ->
  0 < r -> 0 < e ->
  exists rvs s c, mack_rvs "lognorm" k = Ok rvs /\
    nth_error rvs i = Some (Lognorm (FR s) (FR c)) /\ 0 < s /\ 0 < c /\
    mean (lognormal s c) (Rmax r 1) /\ std_dev (lognormal s c) (Rmax r 1 * (e / r)).
Proof.
  intros k i r e Hr He Pr Pe. eexists.
  exists (sg r e), (exp (Rmax (ln r) 0 - 1 / 2 * (sg r e * sg r e))).
  split; [reflexivity|]. split.
  { rewrite (rvs_nth fit_lognorm k i (FR r) (FR e) Hr He).
    rewrite fit_lognorm_pos by assumption. reflexivity. }
  split; [apply sg_pos; assumption|]. split; [apply exp_pos|].
  assert (E : Rmax r 1 = exp (Rmax (ln r) 0)).
  { destruct (Rle_lt_dec 1 r) as [L|L].
    - rewrite ln_ge_0, Rmax_left by lra. rewrite exp_ln by lra. reflexivity.
    - rewrite ln_le_0, Rmax_right by lra. rewrite exp_0. reflexivity. }
  rewrite E. apply (fitted_moments r e (Rmax (ln r) 0) Pr Pe).
Qed.

Lemma c34_lognormal_matched : forall k i r e,
  nth_error (mack_reserves k) i = Some (FR r) ->
  nth_error (mack_std_errors k) i = Some (FR e) ->
  1 <= r -> 0 < e ->
  exists rvs s c, mack_rvs "lognorm" k = Ok rvs /\
    nth_error rvs i = Some (Lognorm (FR s) (FR c)) /\ 0 < s /\ 0 < c /\
    mean (lognormal s c) r /\ std_dev (lognormal s c) e.
Proof.
  intros k i r e Hr He Lr Pe.
  destruct (c34_lognormal k i r e Hr He ltac:(lra) Pe) as (rvs & s & c & A & B & C & D & M & V).
  exists rvs, s, c. rewrite Rmax_left in M, V by lra.
  replace (r * (e / r)) with e in V by (field; lra). auto 10.
Qed.

Lemma c34_unmatched : forall k i r e,
  nth_error (mack_reserves k) i = Some (FR r) ->
  nth_error (mack_std_errors k) i = Some (FR e) ->
  0 < r < 1 -> 0 < e ->
  exists rvs s c, mack_rvs "lognorm" k = Ok rvs /\
    nth_error rvs i = Some (Lognorm (FR s) (FR c)) /\
    ~ mean (lognormal s c) r.
Proof.
  intros k i r e Hr He [Pr Lr] Pe.
  destruct (c34_lognormal k i r e Hr He Pr Pe) as (rvs & s & c & A & B & C & D & M & V).
  exists rvs, s, c. split; [exact A|]. split; [exact B|]. intro H.
  rewrite Rmax_right in M by lra. pose proof (mean_unique _ _ _ M H). lra.
Qed.

Lemma c34_bad_dist : forall k dist, dist <> "norm"%string -> dist <> "lognorm"%string ->
  mack_rvs dist k = Err ValueError.
Proof.
  intros k dist N1 N2. unfold mack_rvs.
  apply String.eqb_neq in N1. apply String.eqb_neq in N2. rewrite N1, N2. reflexivity.
Qed.

(** Where the columns' entries come from. *)
Lemma reserves_row : forall k i q,
  nth_error (map s_reserve (c_rows (k_cl k))) i = Some (Fin q) ->
  nth_error (mack_reserves k) i = Some (FR (Q2R (this q))).
Proof.
  intros k i q H. unfold mack_reserves.
  assert (L : (i < List.length (map s_reserve (c_rows (k_cl k))))%nat)
    by (apply nth_error_Some; congruence).
  rewrite <- (map_map s_reserve of_val).
  rewrite nth_error_app1 by (rewrite map_length; exact L).
  rewrite nth_error_map, H. reflexivity.
Qed.

Lemma reserves_total : forall k q, snd (c_total (k_cl k)) = Fin q ->
  nth_error (mack_reserves k) (List.length (c_rows (k_cl k))) = Some (FR (Q2R (this q))).
Proof.
  intros k q H. unfold mack_reserves.
  rewrite nth_error_app2 by (rewrite map_length; apply Nat.le_refl).
  rewrite map_length, Nat.sub_diag, H. reflexivity.
Qed.

Lemma fsqrt_fin : forall q : Qc, (0 <= q)%Qc ->
  fsqrt (of_val (Fin q)) = FR (sqrt (Q2R (this q))).
Proof.
  intros q H. cbn [of_val fsqrt].
  assert (0 <= Q2R (this q)).
  { rewrite <- RMicromega.Q2R_0. apply Qle_Rle. exact H. }
  destruct (Rlt_dec (Q2R (this q)) 0); [lra|reflexivity].
Qed.

Lemma std_errors_row : forall k i (q : Qc),
  nth_error (k_mse k) i = Some (Fin q) -> (0 <= q)%Qc ->
  nth_error (mack_std_errors k) i = Some (FR (sqrt (Q2R (this q)))).
Proof.
  intros k i q H L. unfold mack_std_errors.
  assert (N : (i < List.length (k_mse k))%nat) by (apply nth_error_Some; congruence).
  rewrite nth_error_app1 by (rewrite map_length; exact N).
  rewrite nth_error_map, H. cbn [option_map]. f_equal. apply fsqrt_fin, L.
Qed.

Lemma std_errors_total : forall k (q : Qc), k_mse_total k = Fin q -> (0 <= q)%Qc ->
  nth_error (mack_std_errors k) (List.length (k_mse k)) = Some (FR (sqrt (Q2R (this q)))).
Proof.
  intros k q H L. unfold mack_std_errors.
  rewrite nth_error_app2 by (rewrite map_length; apply Nat.le_refl).
  rewrite map_length, Nat.sub_diag, H. cbn [nth_error]. f_equal. apply fsqrt_fin, L.
Qed.

Lemma Q2R_gt : forall a b : Q, (a < b)%Q -> Q2R a < Q2R b.
Proof. intros. apply Qlt_Rlt. assumption. Qed.
