(** C61: the quantile columns of Mack's chain ladder. *)
From Coq Require Import String QArith Qcanon Qreals Reals Lra Lia ZArith List Bool Sorting.Sorted.
From Coquelicot Require Import Coquelicot.
From Verif Require Import Val QcLib Frame Triangle A2A Base Mack Diag Dist Quant Infer SpecInfer.
From Verif Require Import SpecQuant QuantFacts QuantClaims SpecDist Gauss DistClaims SpecTail GaussTail InferClaims.
Import ListNotations.
Open Scope list_scope.
Local Open Scope R_scope.

Definition increasing_law (X : R -> R) : Prop := forall a b, a < b -> X a < X b.
Lemma normal_incr : forall l s, 0 < s -> increasing_law (normal l s).
Proof. intros l s S a b H. unfold normal. nra. Qed.
Lemma lognormal_incr : forall s c, 0 < s -> 0 < c -> increasing_law (lognormal s c).
Proof.
  intros s c S C a b H. unfold lognormal. apply Rmult_lt_compat_l; [exact C|]. apply exp_increasing. nra.
Qed.

Lemma ppf_lt : forall ppf, std_ppf ppf -> forall p p', 0 < p -> p < p' -> p' < 1 -> ppf p < ppf p'.
Proof.
  intros ppf H p p' A B C. apply Phi0_lt_inv. rewrite !(ppf_eq ppf H) by lra. lra.
Qed.
Lemma ppf_odd : forall ppf, std_ppf ppf -> forall p, 0 < p < 1 -> ppf (1 - p) = - ppf p.
Proof. intros ppf H p A. apply Phi0_inj. rewrite Phi0_odd, !(ppf_eq ppf H) by lra. lra. Qed.

Section Law.
  Variables (ppf X : R -> R).
  Hypothesis (Hq : std_ppf ppf) (Hx : increasing_law X).
  Lemma law_le : forall p, 0 < p < 1 -> prob_le X (X (ppf p)) p.
  Proof.
    intros p A. replace p with (Phi0 (ppf p) + 1 / 2) at 2 by (rewrite (ppf_eq ppf Hq) by exact A; lra).
    apply prob_le_at; intros z L; [left|]; apply Hx, L.
  Qed.
  Lemma law_lt : forall p p', 0 < p -> p < p' -> p' < 1 -> X (ppf p) < X (ppf p').
  Proof. intros. apply Hx, ppf_lt; assumption. Qed.
  Lemma law_between : forall c, 0 < c < 1 -> prob_between X (X (ppf ((1 - c) / 2))) (X (ppf ((1 + c) / 2))) c.
  Proof.
    intros c A. replace c with (Phi0 (ppf ((1 + c) / 2)) - Phi0 (ppf ((1 - c) / 2))) at 3
      by (rewrite !(ppf_eq ppf Hq) by lra; lra).
    apply prob_between_at.
    - left. apply ppf_lt; [exact Hq|lra|lra|lra].
    - intros z [L L']. split; left; apply Hx; assumption.
    - intros z L. apply Hx, L.
    - intros z L. apply Hx, L.
  Qed.
End Law.

Lemma Q2R_0' : Q2R (this 0%Qc) = 0. Proof. exact Q2R_qz0. Qed.
Lemma Q2R_1' : Q2R (this 1%Qc) = 1. Proof. unfold Q2R. simpl. lra. Qed.
Lemma Q2R_inj : forall a b : Qc, Q2R (this a) = Q2R (this b) -> a = b.
Proof. intros a b H. apply Qc_is_canon. apply eqR_Qeq. exact H. Qed.

Lemma ppf_norm : forall ppf l s x, 0 < s -> (0 <= x)%Qc -> (x <= 1)%Qc ->
  rv_ppf ppf (Norm (FR l) (FR s)) x = entry_of FNInf (fun p => normal l s (ppf p)) x.
Proof.
  intros ppf l s x S A B. unfold rv_ppf, entry_of. destruct (Rlt_dec 0 s); [|lra].
  apply Qle_Rle in A. apply Qle_Rle in B. rewrite Q2R_0' in A. rewrite Q2R_1' in B.
  destruct (Rlt_dec (Q2R x) 0); [lra|]. destruct (Rlt_dec 1 (Q2R x)); [lra|].
  destruct (qceqb x 0) eqn:E0.
  - apply qceqb_eq in E0. subst. destruct (Req_EM_T (Q2R 0%Qc) 0) as [F|F]; [reflexivity|]. exfalso. apply F, Q2R_0'.
  - destruct (Req_EM_T (Q2R x) 0) as [E|E].
    { exfalso. rewrite <- Q2R_0' in E. apply Q2R_inj in E. subst. rewrite qceqb_refl in E0. discriminate. }
    destruct (qceqb x 1) eqn:E1.
    + apply qceqb_eq in E1. subst. destruct (Req_EM_T (Q2R 1%Qc) 1) as [F|F]; [reflexivity|]. exfalso. apply F, Q2R_1'.
    + destruct (Req_EM_T (Q2R x) 1) as [F|F].
      { exfalso. rewrite <- Q2R_1' in F. apply Q2R_inj in F. subst. rewrite qceqb_refl in E1. discriminate. }
      f_equal. unfold normal. ring.
Qed.
Lemma ppf_lognorm : forall ppf s c x, 0 < s -> 0 < c -> (0 <= x)%Qc -> (x <= 1)%Qc ->
  rv_ppf ppf (Lognorm (FR s) (FR c)) x = entry_of (FR 0) (fun p => lognormal s c (ppf p)) x.
Proof.
  intros ppf s c x S C A B. unfold rv_ppf, entry_of. destruct (Rlt_dec 0 s); [|lra]. destruct (Rlt_dec 0 c); [|lra].
  apply Qle_Rle in A. apply Qle_Rle in B. rewrite Q2R_0' in A. rewrite Q2R_1' in B.
  destruct (Rlt_dec (Q2R x) 0); [lra|]. destruct (Rlt_dec 1 (Q2R x)); [lra|].
  destruct (qceqb x 0) eqn:E0.
  - apply qceqb_eq in E0. subst. destruct (Req_EM_T (Q2R 0%Qc) 0) as [F|F]; [reflexivity|]. exfalso. apply F, Q2R_0'.
  - destruct (Req_EM_T (Q2R x) 0) as [E|E].
    { exfalso. rewrite <- Q2R_0' in E. apply Q2R_inj in E. subst. rewrite qceqb_refl in E0. discriminate. }
    destruct (qceqb x 1) eqn:E1.
    + apply qceqb_eq in E1. subst. destruct (Req_EM_T (Q2R 1%Qc) 1) as [F|F]; [reflexivity|]. exfalso. apply F, Q2R_1'.
    + destruct (Req_EM_T (Q2R x) 1) as [F|F].
      { exfalso. rewrite <- Q2R_1' in F. apply Q2R_inj in F. subst. rewrite qceqb_refl in E1. discriminate. }
      f_equal. unfold lognormal. ring.
Qed.

Lemma wanted_unit : forall q two x, (forall v, In v q -> in_unit v) -> wanted q two x -> (0 <= x <= 1)%Qc.
Proof.
  intros q two x H W. destruct two; simpl in W.
  - destruct W as (r & Hr & D). destruct (H _ Hr) as (y & E & A & B). injection E as <-.
    assert (T : (0 < qz 2)%Qc) by reflexivity. assert (N : qz 2 <> 0%Qc) by discriminate.
    assert (T2 : qz 2 = (1 + 1)%Qc) by (apply Qc_is_canon; reflexivity).
    assert (P : forall y, (0 <= y)%Qc -> (y <= 1 + 1)%Qc -> (0 <= y / qz 2 <= 1)%Qc).
    { intros y H1 H2. split; [apply qc_div_nonneg; assumption|].
      replace 1%Qc with ((1 + 1) / qz 2)%Qc by (rewrite T2; field; discriminate).
      unfold Qcdiv. apply Qcmult_le_compat_r; [exact H2|]. discriminate. }
    destruct D as [->| ->]; apply P; qlra.
  - destruct (H _ W) as (y & E & A & B). injection E as <-. auto.
Qed.

Lemma table_entries : forall ppf dist k q two i cols rvs d,
  apart q two -> shown_by ppf dist k q two i cols ->
  mack_rvs dist k = Ok rvs -> nth_error rvs i = Some d ->
  exists qs, lists_wanted q two qs /\ (forall x, In x qs -> (0 <= x <= 1)%Qc) /\
    List.length cols = List.length qs /\
    forall j x, nth_error qs j = Some x ->
      exists h col, nth_error cols j = Some (h, col) /\ nth_error col i = Some (rv_ppf ppf d x).
Proof.
  intros ppf dist k q two i cols rvs d Ha Hs Hr Hd.
  assert (G : forall qs, map snd cols = map (fun x => map (fun f => f x) (map (rv_ppf ppf) rvs)) qs \/
                    ((0 < i)%nat /\ map snd cols = map (fun x => match map (rv_ppf ppf) rvs with [] => []
                        | _ :: fs => FNaN :: map (fun f => f x) fs end) qs) ->
    List.length cols = List.length qs /\
    forall j x, nth_error qs j = Some x ->
      exists h col, nth_error cols j = Some (h, col) /\ nth_error col i = Some (rv_ppf ppf d x)).
  { intros qs M.
    assert (L : List.length cols = List.length qs).
    { destruct M as [M|[_ M]]; apply (f_equal (@List.length _)) in M; rewrite !map_length in M; exact M. }
    split; [exact L|]. intros j x Hj.
    destruct (nth_error cols j) as [[h col]|] eqn:Ec.
    2:{ apply nth_error_None in Ec. assert (j < List.length qs)%nat by (apply nth_error_Some; congruence). lia. }
    exists h, col. split; [reflexivity|].
    destruct M as [M|[I M]].
    - apply (f_equal (fun l => nth_error l j)) in M. rewrite !nth_error_map, Ec, Hj in M. simpl in M. injection M as ->.
      rewrite !nth_error_map, Hd. reflexivity.
    - apply (f_equal (fun l => nth_error l j)) in M. rewrite !nth_error_map, Ec, Hj in M. simpl in M. injection M as ->.
      destruct i as [|i]; [lia|]. destruct rvs as [|d0 rvs]; [discriminate|]. simpl in Hd |- *.
      rewrite !nth_error_map, Hd. reflexivity. }
  destruct Hs as [[-> Hs]|[Hi Hs]].
  - unfold mack_quantile_table in Hs. rewrite Hr in Hs. cbn [bind] in Hs.
    destruct (c36_mack_get _ _ _ _ Hs Ha) as [_ [qs [W M]]]. exists qs. split; [exact W|]. split.
    + intros x Hx. apply (wanted_unit q false); [|apply W; exact Hx].
      unfold mack_get_quantiles in Hs. pose proof (c35_result q) as R5.
      destruct (result_formatter q) as [[? ?]|]; [|discriminate]. apply R5.
    + apply G. left. exact M.
  - unfold mack_summary_table in Hs. rewrite Hr in Hs. cbn [bind] in Hs.
    destruct (c36_mack_summary _ _ _ _ _ _ Hs Ha) as [_ [qs [W M]]]. exists qs. split; [exact W|]. split.
    + intros x Hx. apply (wanted_unit q two); [|apply W; exact Hx].
      unfold mack_summary_quantiles in Hs. pose proof (c35 q two) as R5.
      destruct (qtls_formatter q two) as [[? ?]|]; [|discriminate]. apply R5.
    + apply G. right. auto.
Qed.

Lemma c61_normal : forall ppf k i r e q two cols,
  std_ppf ppf ->
  nth_error (mack_reserves k) i = Some (FR r) -> nth_error (mack_std_errors k) i = Some (FR e) -> 0 < e ->
  apart q two -> shown_by ppf "norm" k q two i cols ->
  exists loc scale qs (entry : R -> R),
    mean (normal loc scale) r /\ std_dev (normal loc scale) e /\
    lists_wanted q two qs /\ List.length cols = List.length qs /\
    (forall j x, nth_error qs j = Some x ->
       exists h col, nth_error cols j = Some (h, col) /\ nth_error col i = Some (entry_of FNInf entry x)) /\
    (forall p, 0 < p < 1 -> prob_le (normal loc scale) (entry p) p) /\
    (forall p p', 0 < p -> p < p' -> p' < 1 -> entry p < entry p') /\
    (forall c, 0 < c < 1 -> prob_between (normal loc scale) (entry ((1 - c) / 2)) (entry ((1 + c) / 2)) c /\
       r - entry ((1 - c) / 2) = entry ((1 + c) / 2) - r) /\
    entry (1 / 2) = r.
Proof.
  intros ppf k i r e q two cols Hq Hr He Pe Ha Hs.
  exists r, e.
  destruct (table_entries ppf "norm" k q two i cols _ (Norm (FR r) (FR e)) Ha Hs eq_refl
             (rvs_nth fit_norm k i _ _ Hr He)) as (qs & W & U & L & E).
  exists qs, (fun p => normal r e (ppf p)).
  split; [apply normal_mean|]. split; [apply normal_sd; lra|]. split; [exact W|]. split; [exact L|]. split.
  { intros j x Hj. destruct (E j x Hj) as (h & col & A & B). exists h, col. split; [exact A|].
    rewrite B. f_equal. destruct (U x (nth_error_In _ _ Hj)). apply ppf_norm; assumption. }
  split; [apply law_le; [exact Hq|apply normal_incr, Pe]|].
  split; [apply law_lt; [exact Hq|apply normal_incr, Pe]|]. split.
  - intros c Hc. split; [apply law_between; [exact Hq|apply normal_incr, Pe|exact Hc]|].
    replace ((1 + c) / 2) with (1 - (1 - c) / 2) by lra. rewrite (ppf_odd ppf Hq) by lra. unfold normal. ring.
  - assert (Z : ppf (1 / 2) = 0) by (apply Phi0_inj; rewrite Phi0_0, (ppf_eq ppf Hq) by lra; lra).
    rewrite Z. unfold normal. ring.
Qed.

Lemma c61_lognormal : forall ppf k i r e q two cols,
  std_ppf ppf ->
  nth_error (mack_reserves k) i = Some (FR r) -> nth_error (mack_std_errors k) i = Some (FR e) -> 0 < r -> 0 < e ->
  apart q two -> shown_by ppf "lognorm" k q two i cols ->
  exists s c qs (entry : R -> R),
    mean (lognormal s c) (Rmax r 1) /\ std_dev (lognormal s c) (Rmax r 1 * (e / r)) /\
    lists_wanted q two qs /\ List.length cols = List.length qs /\
    (forall j x, nth_error qs j = Some x ->
       exists h col, nth_error cols j = Some (h, col) /\ nth_error col i = Some (entry_of (FR 0) entry x)) /\
    (forall p, 0 < p < 1 -> 0 < entry p /\ prob_le (lognormal s c) (entry p) p) /\
    (forall p p', 0 < p -> p < p' -> p' < 1 -> entry p < entry p') /\
    (forall l, 0 < l < 1 -> prob_between (lognormal s c) (entry ((1 - l) / 2)) (entry ((1 + l) / 2)) l) /\
    entry (1 / 2) < Rmax r 1.
Proof.
  intros ppf k i r e q two cols Hq Hr He Pr Pe Ha Hs.
  destruct (c34_lognormal k i r e Hr He Pr Pe) as (rvs & s & c & A & B & S & C & M & V).
  exists s, c.
  destruct (table_entries ppf "lognorm" k q two i cols rvs _ Ha Hs A B) as (qs & W & U & L & E).
  exists qs, (fun p => lognormal s c (ppf p)).
  pose proof (lognormal_incr s c S C) as Inc.
  split; [exact M|]. split; [exact V|]. split; [exact W|]. split; [exact L|]. split.
  { intros j x Hj. destruct (E j x Hj) as (h & col & D & F). exists h, col. split; [exact D|].
    rewrite F. f_equal. destruct (U x (nth_error_In _ _ Hj)). apply ppf_lognorm; assumption. }
  split; [intros p Hp; split; [unfold lognormal; apply Rmult_lt_0_compat; [exact C|apply exp_pos]|
    apply law_le; assumption]|].
  split; [apply law_lt; assumption|]. split; [intros; apply law_between; assumption|].
  assert (Z : ppf (1 / 2) = 0) by (apply Phi0_inj; rewrite Phi0_0, (ppf_eq ppf Hq) by lra; lra).
  rewrite Z. unfold lognormal. rewrite Rmult_0_r, exp_0, Rmult_1_r.
  pose proof (mean_unique _ _ _ M (lognormal_mean s c)) as Em. rewrite Em.
  assert (X : 1 < exp (s * s / 2)) by (rewrite <- exp_0; apply exp_increasing; nra). nra.
Qed.

(** Without a positive standard error there are no quantiles. *)
Lemma c61_no_error : forall ppf k i r q two cols,
  nth_error (mack_reserves k) i = Some (FR r) -> nth_error (mack_std_errors k) i = Some (FR 0) ->
  apart q two -> shown_by ppf "norm" k q two i cols ->
  forall h col, In (h, col) cols -> nth_error col i = Some FNaN.
Proof.
  intros ppf k i r q two cols Hr He Ha Hs h col Hc.
  destruct (table_entries ppf "norm" k q two i cols _ (Norm (FR r) (FR 0)) Ha Hs eq_refl
             (rvs_nth fit_norm k i _ _ Hr He)) as (qs & W & U & L & E).
  apply In_nth_error in Hc. destruct Hc as [j Hj].
  assert (Hl : (j < List.length qs)%nat) by (rewrite <- L; apply nth_error_Some; congruence).
  destruct (nth_error qs j) as [x|] eqn:Ex; [|apply nth_error_None in Ex; lia].
  destruct (E j x Ex) as (h' & col' & A & B). rewrite A in Hj. injection Hj as <- <-. rewrite B.
  unfold rv_ppf. destruct (Rlt_dec 0 0); [lra|reflexivity].
Qed.

(** Exact quantile functions exist. *)
Definition lub_ppf (q : R) : R := real (Lub_Rbar (fun x => Phi0 x + 1 / 2 <= q)).
Lemma lub_ppf_std : std_ppf lub_ppf.
Proof.
  intros q H. destruct (Phi0_onto q H) as [y Hy]. apply prob_le_iff.
  unfold lub_ppf. rewrite (is_lub_Rbar_unique _ (Finite y)).
  - simpl. lra.
  - split.
    + intros x Hx. simpl. destruct (Rle_lt_dec x y) as [L|L]; [exact L|]. apply Phi0_lt in L. lra.
    + intros b Hb. apply Hb. lra.
Qed.

(** The lognormal of a row with a negative or zero reserve, or without error. *)
Lemma lognorm_none : forall ppf r e x, r <= 0 \/ e = 0 -> rv_ppf ppf (fit_lognorm (FR r) (FR e)) x = FNaN.
Proof.
  intros ppf r e x H. unfold fit_lognorm.
  destruct (Rlt_dec r 0) as [N|N].
  - assert (L : flog (FR r) = FNaN) by (unfold flog; destruct (Rlt_dec r 0); [reflexivity|lra]).
    rewrite L. cbn [fclip0 fsub]. set (s := fnan0 _). clearbody s. unfold rv_ppf. destruct s; reflexivity.
  - destruct (Req_EM_T r 0) as [Z|Z].
    + subst r. set (s := fnan0 _). set (c := fexp _). clearbody c.
      assert (S0 : s = FPInf \/ s = FR 0).
      { unfold s, fdiv. destruct (Req_EM_T 0 0) as [_|?]; [|lra]. destruct (Req_EM_T e 0); [right; reflexivity|].
        left. destruct (Rlt_dec e 0); reflexivity. }
      unfold rv_ppf. destruct S0 as [->| ->]; [reflexivity|]. destruct c; try reflexivity. destruct (Rlt_dec 0 0); [lra|reflexivity].
    + destruct H as [H|H]; [lra|]. subst e. set (c := fexp _). clearbody c.
      assert (S0 : fnan0 (fsqrt (flog (fadd 1 (fsq (fdiv (FR 0) (FR r)))))) = FR 0).
      { unfold fdiv. destruct (Req_EM_T r 0); [lra|]. cbn [fsq fadd].
        replace (1 + 0 / r * (0 / r)) with 1 by (field; exact Z). unfold flog.
        destruct (Rlt_dec 1 0); [lra|]. destruct (Req_EM_T 1 0); [lra|]. rewrite ln_1. unfold fsqrt.
        destruct (Rlt_dec 0 0); [lra|]. rewrite sqrt_0. reflexivity. }
      rewrite S0. unfold rv_ppf. destruct c; try reflexivity. destruct (Rlt_dec 0 0); [lra|reflexivity].
Qed.
Lemma c61_no_lognormal : forall ppf k i r e q two cols,
  nth_error (mack_reserves k) i = Some (FR r) -> nth_error (mack_std_errors k) i = Some (FR e) ->
  r <= 0 \/ e = 0 -> apart q two -> shown_by ppf "lognorm" k q two i cols ->
  forall h col, In (h, col) cols -> nth_error col i = Some FNaN.
Proof.
  intros ppf k i r e q two cols Hr He H Ha Hs h col Hc.
  destruct (table_entries ppf "lognorm" k q two i cols _ (fit_lognorm (FR r) (FR e)) Ha Hs eq_refl
             (rvs_nth fit_lognorm k i _ _ Hr He)) as (qs & W & U & L & E).
  apply In_nth_error in Hc. destruct Hc as [j Hj].
  assert (Hl : (j < List.length qs)%nat) by (rewrite <- L; apply nth_error_Some; congruence).
  destruct (nth_error qs j) as [x|] eqn:Ex; [|apply nth_error_None in Ex; lia].
  destruct (E j x Ex) as (h' & col' & A & B). rewrite A in Hj. injection Hj as <- <-. rewrite B.
  f_equal. apply lognorm_none, H.
Qed.
