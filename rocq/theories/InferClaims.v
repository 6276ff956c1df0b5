(** C59, C60: the two significance tests. *)
From Coq Require Import String QArith Qcanon Qreals Reals Lra Lia ZArith List Bool.
From Coquelicot Require Import Coquelicot.
From Verif Require Import Val QcLib Frame Triangle A2A Base Mack Diag Dist Quant Infer.
From Verif Require Import Spec Spec2 SpearFacts Binom DiagFacts CyFacts SpecDist Gauss DistClaims SpecTail GaussTail.
Import ListNotations.
Open Scope list_scope.
Local Open Scope R_scope.

Lemma cdf_eq : forall cdf, std_cdf cdf -> forall x, cdf x = Phi0 x + 1 / 2.
Proof. intros cdf H x. apply prob_le_iff, H. Qed.
Lemma ppf_eq : forall ppf, std_ppf ppf -> forall q, 0 < q < 1 -> Phi0 (ppf q) = q - 1 / 2.
Proof. intros ppf H q L. specialize (H q L). apply prob_le_iff in H. lra. Qed.
Lemma cdf_exists : exists cdf, std_cdf cdf.
Proof. exists (fun x => Phi0 x + 1 / 2). intro x. apply prob_le_iff. reflexivity. Qed.

(** A central interval of a normal law. *)
Lemma normal_central : forall mu s z, 0 < s -> 0 <= z ->
  prob_between (normal mu s) (mu - z * s) (mu + z * s) (2 * Phi0 z).
Proof.
  intros mu s z S Z. replace (2 * Phi0 z) with (Phi0 z - Phi0 (- z)) by (rewrite Phi0_odd; lra).
  apply prob_between_at; unfold normal; [lra| | |]; intros; try split; nra.
Qed.

(** Sum of the weights n - k - 1. *)
Lemma weights_sum : forall n, (3 < n)%nat ->
  (qz ((Z.of_nat n - 2) * (Z.of_nat n - 3)) / qz 2 = sumf 2 (n - 3) (fun k => qn (n - k - 1)))%Qc.
Proof.
  assert (K : forall m n, (m + 3 <= n)%nat -> (sumf 2 m (fun k => qn (n - k - 1)) * qz 2
     = qz (Z.of_nat m * (2 * Z.of_nat n - Z.of_nat m - 5)))%Qc).
  { induction m; intros n H.
    - reflexivity.
    - rewrite sumf_Sr, Qcmult_plus_distr_l, IHm by lia. unfold qn. rewrite <- qz_mul, <- qz_add.
      f_equal. lia. }
  intros n H. specialize (K (n - 3)%nat n). 
  assert (T : qz 2 <> 0%Qc) by discriminate.
  apply (f_equal (fun x => x / qz 2)%Qc) in K; [|lia].
  rewrite Qcdiv_mult_l in K by exact T. rewrite K. do 2 f_equal. nia.
Qed.

Lemma Q2R_qz0 : Q2R (this 0%Qc) = 0.
Proof. unfold Q2R. simpl. lra. Qed.
Lemma Q2R_pos : forall q : Qc, (0 < q)%Qc -> 0 < Q2R (this q).
Proof. intros q H. rewrite <- Q2R_qz0. apply Qlt_Rlt. exact H. Qed.
Lemma Q2R_nonneg : forall q : Qc, (0 <= q)%Qc -> 0 <= Q2R (this q).
Proof. intros q H. rewrite <- Q2R_qz0. apply Qle_Rle. exact H. Qed.

Lemma weights_pos : forall n, (3 < n)%nat -> (0 < sumf 2 (n - 3) (fun k => qn (n - k - 1)))%Qc.
Proof. intros n H. apply sumf_pos; [lia|]. intros i Hi. apply qn_pos. lia. Qed.

(** ** C59 *)
Lemma c59 : forall (cdf : R -> R) (root : (R -> R) -> R -> R) (m : lmat) (n : nat) (C : nat -> nat -> Qc) (p x0 : R),
  std_cdf cdf -> regular m n C -> positive n C -> (3 < n)%nat -> 0 < p < 1 ->
  (let f x := cdf x - cdf (- x) - p in f (root f x0) = 0) ->
  exists (z : R) (q : Qc),
    0 < z /\ prob_between (normal 0 1) (- z) z p /\
    spearman_total m = Ok (Fin q) /\
    let sd := sqrt (/ Q2R (this (sumf 2 (n - 3) (fun k => qn (n - k - 1))))) in
    0 < sd /\
    devp_corr_test cdf root m p x0 = Ok (FR (- (z * sd)), FR (z * sd), Fin q) /\
    prob_between (normal 0 sd) (- (z * sd)) (z * sd) p.
Proof.
  intros cdf root m n C p x0 Hc Rg Ps Hn Hp Hr. cbv beta zeta in Hr.
  set (z := root (fun x => cdf x - cdf (- x) - p) x0) in *.
  rewrite !(cdf_eq cdf Hc), Phi0_odd in Hr.
  assert (Z0 : 0 < z). { apply Phi0_lt_inv. rewrite Phi0_0. lra. }
  destruct (c44 m n C Rg Ps Hn) as (T & _ & _ & q & Hq & _).
  pose proof (weights_pos n Hn) as W0. set (W := sumf 2 (n - 3) (fun k => qn (n - k - 1))) in *.
  pose proof (Q2R_pos _ W0) as W1. set (w := Q2R (this W)) in *.
  assert (I0 : 0 < / w) by (apply Rinv_0_lt_compat; exact W1).
  assert (S0 : 0 < sqrt (/ w)) by (apply sqrt_lt_R0; exact I0).
  exists z, q. split; [exact Z0|]. split.
  { pose proof (normal_central 0 1 z ltac:(lra) ltac:(lra)) as N.
    replace (0 - z * 1) with (- z) in N by ring. replace (0 + z * 1) with z in N by ring.
    replace (2 * Phi0 z) with p in N by lra. exact N. }
  split; [exact Hq|]. cbv zeta. split; [exact S0|]. split.
  - unfold devp_corr_test. fold z. rewrite Hq. cbn [bind].
    replace (devp_corr_test_var m) with W.
    2:{ unfold W. rewrite <- weights_sum by exact Hn. unfold devp_corr_test_var.
        destruct Rg as (_ & _ & _ & H & _). unfold ncols. rewrite H. reflexivity. }
    cbn [of_val]. fold w. unfold fsqrt. destruct (Rlt_dec w 0); [lra|].
    assert (S1 : 0 < sqrt w) by (apply sqrt_lt_R0; exact W1).
    unfold fdiv. destruct (Req_EM_T (sqrt w) 0); [lra|].
    rewrite sqrt_inv. repeat f_equal; unfold Rdiv; ring.
  - pose proof (normal_central 0 (sqrt (/ w)) z S0 ltac:(lra)) as N.
    replace (0 - z * sqrt (/ w)) with (- (z * sqrt (/ w))) in N by ring.
    replace (0 + z * sqrt (/ w)) with (z * sqrt (/ w)) in N by ring.
    replace (2 * Phi0 z) with p in N by lra. exact N.
Qed.

(** The start of the search does not matter. *)
Lemma c59_start : forall cdf root root' p x0 x1, std_cdf cdf ->
  (let f x := cdf x - cdf (- x) - p in f (root f x0) = 0 /\ f (root' f x1) = 0) ->
  forall m, devp_corr_test cdf root m p x0 = devp_corr_test cdf root' m p x1.
Proof.
  intros cdf root root' p x0 x1 Hc [A B] m. unfold devp_corr_test.
  set (f := fun x => cdf x - cdf (- x) - p) in *.
  assert (E : root f x0 = root' f x1).
  { assert (F : forall x, f x = 2 * Phi0 x - p).
    { intro x. unfold f. rewrite !(cdf_eq cdf Hc), Phi0_odd. lra. }
    change (f (root f x0) = 0) in A. change (f (root' f x1) = 0) in B. rewrite F in A, B. apply Phi0_inj. lra. }
  rewrite E. reflexivity.
Qed.

(** ** C60 *)
Lemma mean_half_nonneg : forall n g, (forall s, (0 <= g s)%Qc) -> (0 <= mean_half n g)%Qc.
Proof.
  intros n g H. unfold mean_half. apply sumf_nonneg. intros s _.
  assert (P : (0 < qz 2 ^ n)%Qc).
  { clear. induction n; [reflexivity|]. simpl. apply qc_mul_pos; [reflexivity|exact IHn]. }
  apply qc_mul_nonneg; [|apply H]. apply qc_div_nonneg; [apply qn_nonneg|exact P].
Qed.
Lemma var_half_nonneg : forall n g, (0 <= var_half n g)%Qc.
Proof. intros n g. apply mean_half_nonneg. intro s. apply qc_sq_nonneg. Qed.

(** The rows of the table as a function of the diagonal. *)
Lemma rows_sum : forall (f : nat -> Qc) (g : cy_row -> Qc) rows a n,
  map y_j rows = seq a n -> (forall r, In r rows -> g r = f (y_j r)) ->
  fold_right (fun r s => g r + s)%Qc 0%Qc rows = sumf a n f.
Proof.
  intros f g rows. induction rows as [|r rows IH]; intros a n H K.
  - destruct n; [reflexivity|discriminate].
  - destruct n; [discriminate|]. simpl in H. injection H as H1 H2. rewrite sumf_Sl. simpl.
    rewrite (IH (S a) n H2) by (intros; apply K; right; auto). rewrite K by (left; auto). rewrite H1. reflexivity.
Qed.
Lemma rows_count : forall (f : nat -> nat) rows a n,
  map y_j rows = seq a n -> (forall r, In r rows -> y_Z r = f (y_j r)) ->
  cy_Z rows = list_sum (map f (seq a n)).
Proof.
  intros f rows. induction rows as [|r rows IH]; intros a n H K.
  - destruct n; [reflexivity|discriminate].
  - destruct n; [discriminate|]. simpl in H. injection H as H1 H2. simpl.
    rewrite (IH (S a) n H2) by (intros; apply K; right; auto). rewrite K by (left; auto). rewrite H1. reflexivity.
Qed.
Lemma sum_opt_rows : forall (y : cy_row -> option Qc) (g : cy_row -> Qc) rows,
  (forall r, In r rows -> y r = Some (g r) \/ (y r = None /\ g r = 0%Qc)) ->
  sum_opt (map y rows) = fold_right (fun r s => g r + s)%Qc 0%Qc rows.
Proof.
  intros y g rows. induction rows as [|r rows IH]; intro H; [reflexivity|].
  unfold sum_opt in *. simpl. rewrite IH by (intros; apply H; right; auto).
  destruct (H r) as [E|[E G]]; [left; auto| |]; rewrite E; [reflexivity|]. rewrite G. ring.
Qed.
Lemma mean_half_0 : forall g : nat -> Qc, mean_half 0 g = g 0%nat.
Proof.
  intro g. unfold mean_half. rewrite sumf_Sl, sumf_0. simpl choose. change (qn 1 / qz 2 ^ 0)%Qc with (qn 1 / 1)%Qc.
  rewrite qn_1. unfold Qcdiv. replace (/ 1)%Qc with 1%Qc by (apply Qc_is_canon; reflexivity). ring.
Qed.

Lemma cy_row_none : forall m rows r, cy_effects_table m = Ok rows -> In r rows -> y_n r = 0%nat ->
  y_E r = None /\ y_V r = None.
Proof.
  intros m rows r H Hr Z. unfold cy_effects_table in H.
  destruct (a2a_lvi m) as [lvi|]; [|discriminate]. cbn [bind] in H.
  destruct (item (diffs (map fst lvi))); [|discriminate]. cbn [bind] in H.
  destruct (item (diffs (map snd lvi))); [|discriminate]. cbn [bind] in H.
  injection H as <-. apply in_map_iff in Hr. destruct Hr as [c [<- _]].
  unfold cy_of in *. simpl in *. rewrite Z. auto.
Qed.

Lemma c60 : forall (ppf : R -> R) (m : lmat) (n : nat) (C : nat -> nat -> Qc) (med : nat -> Qc) (p : R),
  std_ppf ppf -> regular m n C -> positive n C -> (2 < n)%nat ->
  evenly_spaced (m_cols m) -> evenly_spaced (m_idx m) -> 0 < p <= 1 ->
  let F i p := (C i (S p) / C i p)%Qc in
  (forall p, (p < n - 1)%nat -> is_median (map (fun i => F i p) (seq 0 (n - 1 - p))) (med p)) ->
  let low j := on_diagonal j (fun i p => qcltb (F i p) (med p) && negb (near (F i p) (med p))) in
  let high j := on_diagonal j (fun i p => qcltb (med p) (F i p) && negb (near (F i p) (med p))) in
  let fewer s t := qn (Nat.min s (t - s)) in
  let E := sumf 2 (n - 2) (fun j => mean_half (low j + high j) (fun s => fewer s (low j + high j)%nat)) in
  let V := sumf 2 (n - 2) (fun j => var_half (low j + high j) (fun s => fewer s (low j + high j)%nat)) in
  exists lb ub,
    cy_effects_test ppf m p =
      Ok (FR lb, FR ub, list_sum (map (fun j => Nat.min (low j) (high j)) (seq 2 (n - 2)))) /\
    (0 <= V)%Qc /\ lb <= Q2R E <= ub /\ Q2R E - lb = ub - Q2R E /\
    (V = 0%Qc -> lb = Q2R E /\ ub = Q2R E) /\
    ((0 < V)%Qc -> prob_between (normal (Q2R E) (sqrt (Q2R V))) lb ub (1 - p)).
Proof.
  intros ppf m n C med p Hq Rg Ps Hn Sc Si Hp F Md low high fewer E V.
  destruct (c45 m n C med Rg Ps Hn (evenly_firstn _ _ Sc) (evenly_firstn _ _ Si) Md) as (rows & Hrows & Hj & Hr).
  assert (V0 : (0 <= V)%Qc) by (apply sumf_nonneg; intros; apply var_half_nonneg).
  assert (HE : cy_E rows = E).
  { unfold cy_E. rewrite (sum_opt_rows y_E (fun r => mean_half (y_n r) (fun s => fewer s (y_n r)))).
    - apply rows_sum; [exact Hj|]. intros r Hin. destruct (Hr r Hin) as (A & B & _ & D & _).
      fold F in A, B. rewrite D, A, B. reflexivity.
    - intros r Hin. destruct (Hr r Hin) as (_ & _ & _ & _ & K). destruct (y_n r) as [|c] eqn:En.
      + right. split; [apply (cy_row_none m rows r Hrows Hin En)|]. rewrite mean_half_0. reflexivity.
      + left. apply K. lia. }
  assert (HV : cy_V rows = V).
  { unfold cy_V. rewrite (sum_opt_rows y_V (fun r => var_half (y_n r) (fun s => fewer s (y_n r)))).
    - apply rows_sum; [exact Hj|]. intros r Hin. destruct (Hr r Hin) as (A & B & _ & D & _).
      fold F in A, B. rewrite D, A, B. reflexivity.
    - intros r Hin. destruct (Hr r Hin) as (_ & _ & _ & _ & K). destruct (y_n r) as [|c] eqn:En.
      + right. split; [apply (cy_row_none m rows r Hrows Hin En)|]. unfold var_half. rewrite !mean_half_0.
        unfold fewer. simpl Nat.min. rewrite qn_0. ring.
      + left. apply K. lia. }
  assert (HZ : cy_Z rows = list_sum (map (fun j => Nat.min (low j) (high j)) (seq 2 (n - 2)))).
  { apply rows_count; [exact Hj|]. intros r Hin. destruct (Hr r Hin) as (A & B & D & _).
    fold F in A, B. rewrite D, A, B. reflexivity. }
  pose proof (Q2R_nonneg V V0) as V1.
  set (z := Rabs (ppf (p / 2))). pose proof (sqrt_pos (Q2R V)) as S0. pose proof (Rabs_pos (ppf (p / 2))) as Z0. fold z in Z0.
  exists (Q2R E - z * sqrt (Q2R V)), (Q2R E + z * sqrt (Q2R V)).
  split.
  { unfold cy_effects_test. rewrite Hrows. cbn [bind]. rewrite HE, HV, HZ. cbn [of_val].
    unfold fsqrt. destruct (Rlt_dec (Q2R V) 0); [lra|]. reflexivity. }
  split; [exact V0|]. split; [split; nra|]. split; [lra|]. split.
  { intro Z. rewrite Z, Q2R_qz0, sqrt_0. split; ring. }
  intro Vp. apply Q2R_pos in Vp. apply sqrt_lt_R0 in Vp.
  replace (1 - p) with (2 * Phi0 z); [apply normal_central; lra|].
  assert (Q : Phi0 (ppf (p / 2)) = p / 2 - 1 / 2) by (apply ppf_eq; [exact Hq|lra]).
  assert (L : ppf (p / 2) <= 0).
  { destruct (Rle_lt_dec (ppf (p / 2)) 0) as [L|L]; [exact L|]. apply Phi0_lt in L. rewrite Phi0_0 in L. lra. }
  unfold z. rewrite Rabs_left1 by exact L. rewrite Phi0_odd. lra.
Qed.
