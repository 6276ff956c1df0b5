(** The lognormal distributions of the rows that C34's other theorems leave out: a
    reserve of 0, a standard error of 0 and a negative reserve. *)

From Coq Require Import String QArith Qcanon Qreals Reals Lra Lia ZArith List Bool.
From Coquelicot Require Import Coquelicot.
From Verif Require Import Val Frame Triangle A2A Base Mack QcLib Spec MackClaims2 MackClaims3 MackExplicit SpecDist Dist DistClaims.
Import ListNotations.
Open Scope list_scope.
Local Open Scope R_scope.

(** A lognormal of shape 0 is a constant. *)
Lemma lognormal_const c : mean (lognormal 0 c) c /\ std_dev (lognormal 0 c) 0.
Proof.
  assert (E : exp (0 * 0 / 2) = 1) by (replace (0 * 0 / 2) with 0 by field; apply exp_0).
  split.
  - eapply line_val; [|apply lognormal_mean]. rewrite E. ring.
  - apply lognormal_sd; [lra|]. replace (0 * 0) with 0 by ring. rewrite exp_0. ring.
Qed.

Lemma fit_00 : fit_lognorm (FR 0) (FR 0) = Lognorm (FR 0) (FR 1).
Proof.
  unfold fit_lognorm. cbn [fdiv flog].
  destruct (Req_EM_T 0 0) as [_|N]; [|lra]. destruct (Rlt_dec 0 0); [lra|].
  cbn [fsq fadd flog fsqrt fnan0 fscal fsub fclip0 fexp].
  do 2 f_equal. replace (0 - 1 / 2 * (0 * 0)) with 0 by field. apply exp_0.
Qed.
Lemma fit_r0 r : 0 < r -> fit_lognorm (FR r) (FR 0) = Lognorm (FR 0) (FR (Rmax r 1)).
Proof.
  intro Hr. unfold fit_lognorm. cbn [fdiv flog].
  destruct (Req_EM_T r 0) as [N|_]; [lra|]. destruct (Rlt_dec r 0); [lra|].
  cbn [fsq fadd flog]. replace (1 + 0 / r * (0 / r)) with 1 by (field; lra).
  destruct (Rlt_dec 1 0); [lra|]. destruct (Req_EM_T 1 0); [lra|]. rewrite ln_1.
  cbn [fsqrt]. destruct (Rlt_dec 0 0); [lra|]. rewrite sqrt_0.
  cbn [fnan0 fsq fscal fsub fclip0 fexp]. do 2 f_equal.
  replace (Rmax (ln r) 0 - 1 / 2 * (0 * 0)) with (Rmax (ln r) 0) by field.
  destruct (Rle_lt_dec 1 r) as [L|L].
  - rewrite ln_ge_0, Rmax_left by lra. apply exp_ln. lra.
  - rewrite ln_le_0, Rmax_right by lra. apply exp_0.
Qed.
Lemma fit_0e e : 0 < e -> fit_lognorm (FR 0) (FR e) = Lognorm FPInf (FR 0).
Proof.
  intro He. unfold fit_lognorm. cbn [fdiv flog].
  destruct (Req_EM_T 0 0) as [_|N]; [|lra]. destruct (Req_EM_T e 0); [lra|].
  destruct (Rlt_dec e 0); [lra|]. destruct (Rlt_dec 0 0); [lra|]. reflexivity.
Qed.
Lemma fit_neg r e : r < 0 ->
  fit_lognorm (FR r) (FR e) = Lognorm (FR (sqrt (ln (1 + e / r * (e / r))))) FNaN.
Proof.
  intro Hr. unfold fit_lognorm. cbn [fdiv flog].
  destruct (Req_EM_T r 0) as [N|_]; [lra|]. destruct (Rlt_dec r 0); [|lra].
  cbn [fsq fadd flog]. assert (P : 0 <= e / r * (e / r)) by (apply Rle_0_sqr).
  destruct (Rlt_dec (1 + e / r * (e / r)) 0); [lra|].
  destruct (Req_EM_T (1 + e / r * (e / r)) 0); [lra|].
  cbn [fsqrt]. destruct (Rlt_dec (ln (1 + e / r * (e / r))) 0) as [L|L]; [|reflexivity].
  exfalso. destruct (Req_dec (e / r * (e / r)) 0) as [Z|Z].
  - rewrite Z, Rplus_0_r, ln_1 in L. lra.
  - assert (ln 1 < ln (1 + e / r * (e / r))) by (apply ln_increasing; lra). rewrite ln_1 in *. lra.
Qed.

Lemma c34_other : forall k i r e,
  nth_error (mack_reserves k) i = Some (FR r) ->
  nth_error (mack_std_errors k) i = Some (FR e) ->
  exists rvs, mack_rvs "lognorm" k = Ok rvs /\
    (0 <= r -> e = 0 -> exists s c, nth_error rvs i = Some (Lognorm (FR s) (FR c)) /\
       mean (lognormal s c) (Rmax r 1) /\ std_dev (lognormal s c) 0) /\
    (r = 0 -> 0 < e -> nth_error rvs i = Some (Lognorm FPInf (FR 0))) /\
    (r < 0 -> nth_error rvs i = Some (Lognorm (FR (sqrt (ln (1 + e / r * (e / r))))) FNaN)).
Proof.
  intros k i r e Hr He. eexists. split; [reflexivity|].
  pose proof (rvs_nth fit_lognorm k i (FR r) (FR e) Hr He) as N.
  split; [|split].
  - intros Lr ->. exists 0, (Rmax r 1). split; [|apply lognormal_const].
    etransitivity; [exact N|]. f_equal. destruct (Req_dec r 0) as [->|Z].
    + rewrite fit_00, Rmax_right by lra. reflexivity.
    + apply fit_r0. lra.
  - intros -> Pe. etransitivity; [exact N|]. f_equal. apply fit_0e, Pe.
  - intros Lr. etransitivity; [exact N|]. f_equal. apply fit_neg, Lr.
Qed.

(** The first origin of a run-off triangle is fully developed. *)
Lemma c34_first m n C : regular m n C -> positive n C -> (3 < n)%nat -> tail_fits (m_cols m) ->
  forall cl, clvi m = Ok cl ->
  forall ind W, weights ind n W ->
  forall alpha v tail k,
  mack_cl (mkTri m "origin" "dev" v) cl ind alpha tail = Ok k ->
  nth_error (mack_reserves k) 0 = Some (FR 0) /\ nth_error (mack_std_errors k) 0 = Some (FR 0) /\
  exists rvs s c, mack_rvs "lognorm" k = Ok rvs /\
    nth_error rvs 0 = Some (Lognorm (FR s) (FR c)) /\
    mean (lognormal s c) 1 /\ std_dev (lognormal s c) 0.
Proof.
  intros R P Hn Ev cl D ind W Hw al v tail k K.
  destruct (c33_ge m n C R P Hn Ev cl D ind W Hw al v tail k K) as (e & T & E & _ & _ & E0 & _).
  assert (K2 := mack_explicit m n C ind W al v cl tail R P Hn Ev D Hw). rewrite K in K2. injection K2 as K2.
  assert (Hr : nth_error (mack_reserves k) 0 = Some (FR 0)).
  { rewrite K2. destruct n as [|n']; [lia|]. unfold mack_reserves. cbn [mack_pure k_cl c_rows seq map app nth_error].
    cbn [s_reserve xrow of_val]. do 2 f_equal.
    assert (X : xcdf (Datatypes.S n') C W al 0 = 1%Qc).
    { unfold xcdf. replace (Datatypes.S n' - 1 - 0)%nat with n' by lia. unfold prodf. cbn [seq map qprod fold_right].
      unfold xf. replace (Datatypes.S n' <? Datatypes.S n')%nat with false by (symmetry; apply Nat.ltb_irrefl).
      ring. }
    rewrite X. rewrite <- RMicromega.Q2R_0. f_equal.
    match goal with |- context [this ?x] => replace x with 0%Qc by ring end. reflexivity. }
  assert (He : nth_error (mack_std_errors k) 0 = Some (FR 0)).
  { destruct n as [|n']; [lia|]. unfold mack_std_errors. rewrite E. cbn [seq map app nth_error]. rewrite E0.
    f_equal. rewrite fsqrt_fin by apply Qcle_refl. f_equal.
    transitivity (sqrt 0); [f_equal; exact RMicromega.Q2R_0|apply sqrt_0]. }
  split; [exact Hr|]. split; [exact He|].
  destruct (c34_other k 0 0 0 Hr He) as (rvs & A & B & _).
  destruct (B ltac:(lra) eq_refl) as (s & c & B1 & B2 & B3). rewrite Rmax_right in B2 by lra.
  exists rvs, s, c. auto.
Qed.
