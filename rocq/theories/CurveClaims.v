(** Proofs of C70 and C71. *)
From Coq Require Import String QArith Qcanon Qreals Reals Lra Lia ZArith List Bool Sorting.Sorted.
From Coquelicot Require Import Coquelicot.
From Verif Require Import Val QcLib Frame Triangle A2A Base Mack Dist Infer Plot Curve SpecInfer SpecCurve.
From Verif Require Import SpecDist Gauss DistClaims SpecTail GaussTail QtlClaims.
From Verif Require Import ListLib Spec FillFacts BuildFacts CumFacts TotriFacts TblFacts TriClaims2 SpecDist.
Import ListNotations.
Open Scope list_scope.
Local Open Scope R_scope.

(** * Densities *)
Lemma normal_prob : forall l s t, 0 < s -> prob_le (normal l s) t (Phi0 ((t - l) / s) + 1 / 2).
Proof.
  intros l s t Hs. apply prob_le_at; intros z L.
  - unfold normal. apply Rlt_div_r in L; [lra|exact Hs].
  - unfold normal. apply Rlt_div_l in L; [lra|exact Hs].
Qed.
Lemma normal_density : forall l s x, 0 < s -> density_at (normal l s) x (std_pdf ((x - l) / s) / s).
Proof.
  intros l s x Hs. exists (fun t => Phi0 ((t - l) / s) + 1 / 2). split.
  - apply filter_forall. intro t. apply normal_prob, Hs.
  - change (std_pdf ((x - l) / s)) with (phi ((x - l) / s)).
    replace (phi ((x - l) / s) / s) with (plus (scal (/ s) (phi ((x - l) / s))) 0)
      by (unfold plus, scal; simpl; unfold mult; simpl; field; lra).
    apply (is_derive_plus (fun t => Phi0 ((t - l) / s)) (fun _ => 1 / 2)).
    + apply (is_derive_comp Phi0 (fun t => (t - l) / s)); [apply Phi0_derive|].
      auto_derive; [exact Logic.I|]. field. lra.
    + exact (@is_derive_const R_AbsRing R_NormedModule (1 / 2) x).
Qed.

Lemma lognormal_prob : forall s c t, 0 < s -> 0 < c -> 0 < t ->
  prob_le (lognormal s c) t (Phi0 (ln (t / c) / s) + 1 / 2).
Proof.
  intros s c t Hs Hc Ht.
  assert (Q : 0 < t / c) by (apply Rdiv_lt_0_compat; assumption).
  assert (E : t = c * exp (ln (t / c))) by (rewrite exp_ln by exact Q; field; lra).
  apply prob_le_at; intros z L; unfold lognormal.
  - apply Rlt_div_r in L; [|exact Hs]. left. rewrite E. apply Rmult_lt_compat_l; [exact Hc|].
    apply exp_increasing. lra.
  - apply Rlt_div_l in L; [|exact Hs]. rewrite E at 1. apply Rmult_lt_compat_l; [exact Hc|].
    apply exp_increasing. lra.
Qed.
Lemma lognormal_density : forall s c x, 0 < s -> 0 < c -> 0 < x ->
  density_at (lognormal s c) x (std_pdf (ln (x / c) / s) / (s * (x / c)) / c).
Proof.
  intros s c x Hs Hc Hx. exists (fun t => Phi0 (ln (t / c) / s) + 1 / 2).
  assert (Q : 0 < x / c) by (apply Rdiv_lt_0_compat; assumption). split.
  - exists (mkposreal x Hx). intros t Ht. apply lognormal_prob; try assumption.
    unfold ball in Ht. simpl in Ht. unfold AbsRing_ball, abs, minus, plus, opp in Ht. simpl in Ht.
    apply Rabs_def2 in Ht. lra.
  - change (std_pdf (ln (x / c) / s)) with (phi (ln (x / c) / s)).
    replace (phi (ln (x / c) / s) / (s * (x / c)) / c) with (plus (scal (/ (s * x)) (phi (ln (x / c) / s))) 0)
      by (unfold plus, scal; simpl; unfold mult; simpl; field; repeat split; lra).
    apply (is_derive_plus (fun t => Phi0 (ln (t / c) / s)) (fun _ => 1 / 2)).
    + apply (is_derive_comp Phi0 (fun t => ln (t / c) / s)); [apply Phi0_derive|].
      auto_derive; [exact Q|]. field. repeat split; lra.
    + exact (@is_derive_const R_AbsRing R_NormedModule (1 / 2) x).
Qed.

(** * Curves *)
Definition lev (a : Z) : Qc := (qz a / qz 1000)%Qc.
Lemma lev1 : Q2R (this (lev 1)) = 1 / 1000.
Proof. unfold Q2R. simpl. lra. Qed.
Lemma lev999 : Q2R (this (lev 999)) = 999 / 1000.
Proof. unfold Q2R. simpl. lra. Qed.

Lemma linspace_fr : forall a b n, linspace (FR a) (FR b) n
  = map (fun k => FR (a + INR k * ((b - a) / INR (n - 1)))) (seq 0 n).
Proof. reflexivity. Qed.

Definition keep (c : crec) : bool := negb (fisnan (cv_x c) && fisnan (cv_y c)).

Section Curve.
  Variables (ppf X g : R -> R) (o : option Z) (d : rv).
  Hypothesis Hq : std_ppf ppf.
  Hypothesis Hx : increasing_law X.
  Hypothesis H1 : rv_ppf ppf d (lev 1) = FR (X (ppf (1 / 1000))).
  Hypothesis H9 : rv_ppf ppf d (lev 999) = FR (X (ppf (999 / 1000))).
  Hypothesis Hd : forall x, X (ppf (1 / 1000)) <= x -> rv_pdf d (FR x) = FR (g x) /\ 0 < g x /\ density_at X x (g x).
  Lemma curve_density : density_curve X (pts (filter keep (curve ppf o d))).
  Proof.
    set (a := X (ppf (1 / 1000))) in *. set (b := X (ppf (999 / 1000))) in *.
    assert (L : a < b) by (apply law_lt; [exact Hq|exact Hx|lra|lra|lra]).
    assert (I99 : INR (100 - 1) = 99) by (simpl; lra).
    set (h := (b - a) / 99). assert (Ph : 0 < h) by (unfold h; lra).
    exists (fun j => a + INR j * h), (fun j => g (a + INR j * h)), h.
    assert (D : forall j, rv_pdf d (FR (a + INR j * h)) = FR (g (a + INR j * h)) /\ 0 < g (a + INR j * h) /\
                          density_at X (a + INR j * h) (g (a + INR j * h))).
    { intro j. apply Hd. pose proof (Rmult_le_pos (INR j) h (pos_INR j) (Rlt_le _ _ Ph)). lra. }
    split.
    { unfold curve. fold (lev 1) (lev 999). rewrite H1, H9, linspace_fr, I99. fold h.
      unfold pts. generalize (seq 0 100). induction l as [|j l IH]; [reflexivity|].
      cbn [map filter]. destruct (D j) as (E & _). rewrite E. cbn [keep cv_x cv_y fisnan andb negb map].
      f_equal. exact IH. }
    split; [exact Ph|]. split; [intros j _; simpl; lra|].
    split; [replace (a + INR 0 * h) with a by (simpl; lra); apply law_le; [exact Hq|exact Hx|lra]|].
    split.
    { replace (a + INR 99 * h) with b; [apply law_le; [exact Hq|exact Hx|lra]|].
      replace (INR 99) with 99 by (simpl; lra). unfold h. lra. }
    intros j _. apply D.
  Qed.
End Curve.

Lemma curve_nan : forall ppf o d,
  rv_ppf ppf d (lev 1) = FNaN -> filter keep (curve ppf o d) = [].
Proof.
  intros ppf o d H. unfold curve. fold (lev 1). rewrite H. unfold linspace. rewrite map_map.
  assert (N : rv_pdf d FNaN = FNaN).
  { unfold rv_pdf. destruct d as [a b|a b]; destruct a, b; reflexivity. }
  rewrite N. generalize (seq 0 100). induction l as [|j l IH]; [reflexivity|]. exact IH.
Qed.

(** * Selection by label *)
Lemma oeqb_eq : forall a b, oeqb a b = true <-> a = b.
Proof.
  intros [x|] [y|]; simpl; split; intro H; try discriminate; try reflexivity.
  - apply Z.eqb_eq in H. congruence.
  - injection H as ->. apply Z.eqb_refl.
Qed.

Lemma filter_comm : forall (A : Type) (p q : A -> bool) l, filter p (filter q l) = filter q (filter p l).
Proof.
  induction l as [|x l IH]; [reflexivity|]. cbn [filter].
  destruct (q x) eqn:Q, (p x) eqn:P; cbn [filter]; rewrite ?Q, ?P, IH; reflexivity.
Qed.
Lemma filter_all : forall (A : Type) (p : A -> bool) l, (forall x, In x l -> p x = true) -> filter p l = l.
Proof.
  induction l as [|x l IH]; intro H; [reflexivity|]. cbn [filter]. rewrite H by (left; reflexivity).
  f_equal. apply IH. intros. apply H. right. assumption.
Qed.
Lemma filter_none : forall (A : Type) (p : A -> bool) l, (forall x, In x l -> p x = false) -> filter p l = [].
Proof.
  induction l as [|x l IH]; intro H; [reflexivity|]. cbn [filter]. rewrite H by (left; reflexivity).
  apply IH. intros. apply H. right. assumption.
Qed.
Lemma curve_label : forall ppf o d c, In c (curve ppf o d) -> cv_origin c = o.
Proof. intros ppf o d c H. unfold curve in H. apply in_map_iff in H. destruct H as (x & <- & _). reflexivity. Qed.

Lemma select : forall ppf l o d, NoDup (map fst l) -> In (o, d) l ->
  filter (fun c => oeqb (cv_origin c) o) (flat_map (fun p => curve ppf (fst p) (snd p)) l) = curve ppf o d.
Proof.
  induction l as [|[o' d'] l IH]; intros o d N H; [destruct H|].
  cbn [flat_map fst snd]. rewrite filter_app. inversion N as [|? ? Ni Nl]; subst. destruct H as [H|H].
  - injection H as -> ->. rewrite filter_all, filter_none; [apply app_nil_r| |].
    + intros c Hc. apply in_flat_map in Hc. destruct Hc as ([o2 d2] & Hi & Hc).
      apply curve_label in Hc. simpl in Hc. destruct (oeqb (cv_origin c) o) eqn:E; [|reflexivity].
      apply oeqb_eq in E. exfalso. apply Ni. rewrite <- E, Hc. change o2 with (fst (o2, d2)). apply in_map, Hi.
    + intros c Hc. apply curve_label in Hc. apply oeqb_eq. exact Hc.
  - rewrite filter_none; [apply IH; assumption|].
    intros c Hc. apply curve_label in Hc. destruct (oeqb (cv_origin c) o) eqn:E; [|reflexivity].
    apply oeqb_eq in E. exfalso. apply Ni. cbn [fst]. rewrite <- Hc, E. change o with (fst (o, d)). apply in_map, H.
Qed.

Lemma combine_fst_nodup : forall (A B : Type) (l : list A) (l' : list B), NoDup l -> NoDup (map fst (combine l l')).
Proof.
  induction l as [|x l IH]; intros [|y l'] N; cbn; try constructor; inversion N; subst; [|apply IH; assumption].
  intro H. apply in_map_iff in H. destruct H as ([a b] & E & H). simpl in E. subst.
  apply in_combine_l in H. contradiction.
Qed.

Lemma index_nodup : forall k, NoDup (map s_origin (c_rows (k_cl k))) -> NoDup (rv_index k).
Proof.
  intros k. unfold rv_index. induction (c_rows (k_cl k)) as [|r l IH]; intro N; cbn [map app].
  - constructor; [intros []|constructor].
  - inversion N as [|? ? Ni Nl]; subst. constructor; [|apply IH, Nl].
    intro H. apply in_app_or in H. destruct H as [H|[H| []]]; [|discriminate].
    apply Ni. apply in_map_iff in H. destruct H as (r' & E & H). injection E as E. rewrite <- E. apply in_map, H.
Qed.

Lemma transform_points : forall ppf dist k rvs i o d,
  NoDup (map s_origin (c_rows (k_cl k))) -> mack_rvs dist k = Ok rvs ->
  nth_error (rv_index k) i = Some o -> nth_error rvs i = Some d ->
  exists cs, mack_data_transform ppf dist k = Ok cs /\ points o cs = pts (filter keep (curve ppf o d)).
Proof.
  intros ppf dist k rvs i o d N R Ho Hd. unfold mack_data_transform. rewrite R. cbn [bind].
  eexists. split; [reflexivity|]. unfold points. f_equal. fold keep.
  change (fun c => negb (fisnan (cv_x c) && fisnan (cv_y c))) with keep.
  rewrite filter_comm. f_equal. apply select.
  - apply combine_fst_nodup, index_nodup, N.
  - eapply nth_error_In. apply combine_nth_error; eassumption.
Qed.

Lemma phi_std : forall x, 0 < std_pdf x.
Proof. exact phi_pos. Qed.

Lemma norm_lev : forall ppf l s a p, 0 < s -> 0 < p < 1 -> Q2R (this (lev a)) = p ->
  rv_ppf ppf (Norm (FR l) (FR s)) (lev a) = FR (normal l s (ppf p)).
Proof.
  intros ppf l s a p Hs Hp E. unfold rv_ppf. rewrite E. destruct (Rlt_dec 0 s); [|lra].
  destruct (Rlt_dec p 0); [lra|]. destruct (Rlt_dec 1 p); [lra|].
  destruct (Req_EM_T p 0); [lra|]. destruct (Req_EM_T p 1); [lra|]. f_equal. unfold normal. lra.
Qed.
Lemma lognorm_lev : forall ppf s c a p, 0 < s -> 0 < c -> 0 < p < 1 -> Q2R (this (lev a)) = p ->
  rv_ppf ppf (Lognorm (FR s) (FR c)) (lev a) = FR (lognormal s c (ppf p)).
Proof.
  intros ppf s c a p Hs Hc Hp E. unfold rv_ppf. rewrite E. destruct (Rlt_dec 0 s); [|lra].
  destruct (Rlt_dec 0 c); [|lra].
  destruct (Rlt_dec p 0); [lra|]. destruct (Rlt_dec 1 p); [lra|].
  destruct (Req_EM_T p 0); [lra|]. destruct (Req_EM_T p 1); [lra|]. f_equal. unfold lognormal. ring.
Qed.

Lemma c70_normal : forall ppf k i o r e,
  std_ppf ppf -> NoDup (map s_origin (c_rows (k_cl k))) ->
  nth_error (rv_index k) i = Some o ->
  nth_error (mack_reserves k) i = Some (FR r) -> nth_error (mack_std_errors k) i = Some (FR e) -> 0 < e ->
  exists loc scale cs,
    mean (normal loc scale) r /\ std_dev (normal loc scale) e /\
    mack_data_transform ppf "norm" k = Ok cs /\ density_curve (normal loc scale) (points o cs).
Proof.
  intros ppf k i o r e Hq N Ho Hr He Pe. exists r, e.
  destruct (transform_points ppf "norm" k _ i o (Norm (FR r) (FR e)) N eq_refl Ho
              (rvs_nth fit_norm k i _ _ Hr He)) as (cs & E & P).
  exists cs. split; [apply normal_mean|]. split; [apply normal_sd; lra|]. split; [exact E|]. rewrite P.
  apply (curve_density ppf (normal r e) (fun x => std_pdf ((x - r) / e) / e)).
  - exact Hq.
  - apply normal_incr, Pe.
  - apply norm_lev; [exact Pe|lra|apply lev1].
  - apply norm_lev; [exact Pe|lra|apply lev999].
  - intros x _. split; [|split; [|apply normal_density, Pe]].
    + unfold rv_pdf. destruct (Rlt_dec 0 e); [reflexivity|lra].
    + apply Rdiv_lt_0_compat; [apply phi_std|exact Pe].
Qed.

Lemma c70_lognormal : forall ppf k i o r e,
  std_ppf ppf -> NoDup (map s_origin (c_rows (k_cl k))) ->
  nth_error (rv_index k) i = Some o ->
  nth_error (mack_reserves k) i = Some (FR r) -> nth_error (mack_std_errors k) i = Some (FR e) ->
  0 < r -> 0 < e ->
  exists s c cs,
    mean (lognormal s c) (Rmax r 1) /\ std_dev (lognormal s c) (Rmax r 1 * (e / r)) /\
    mack_data_transform ppf "lognorm" k = Ok cs /\ density_curve (lognormal s c) (points o cs).
Proof.
  intros ppf k i o r e Hq N Ho Hr He Pr Pe.
  destruct (c34_lognormal k i r e Hr He Pr Pe) as (rvs & s & c & R & Hd & Ps & Pc & Hm & Hs).
  destruct (transform_points ppf "lognorm" k _ i o _ N R Ho Hd) as (cs & E & P).
  exists s, c, cs. split; [exact Hm|]. split; [exact Hs|]. split; [exact E|]. rewrite P.
  apply (curve_density ppf (lognormal s c) (fun x => std_pdf (ln (x / c) / s) / (s * (x / c)) / c)).
  - exact Hq.
  - apply lognormal_incr; assumption.
  - apply lognorm_lev; [exact Ps|exact Pc|lra|apply lev1].
  - apply lognorm_lev; [exact Ps|exact Pc|lra|apply lev999].
  - intros x Hx.
    assert (Px : 0 < x).
    { eapply Rlt_le_trans; [|exact Hx]. unfold lognormal. apply Rmult_lt_0_compat; [exact Pc|apply exp_pos]. }
    split; [|split; [|apply lognormal_density; assumption]].
    + unfold rv_pdf. destruct (Rlt_dec 0 s); [|lra]. destruct (Rlt_dec 0 c); [|lra].
      destruct (Rlt_dec 0 x); [reflexivity|lra].
    + apply Rdiv_lt_0_compat; [|exact Pc]. apply Rdiv_lt_0_compat; [apply phi_std|].
      apply Rmult_lt_0_compat; [exact Ps|]. apply Rdiv_lt_0_compat; assumption.
Qed.

Lemma c70_no_error : forall ppf k i o r dist,
  dist = "norm"%string \/ dist = "lognorm"%string -> NoDup (map s_origin (c_rows (k_cl k))) ->
  nth_error (rv_index k) i = Some o ->
  nth_error (mack_reserves k) i = Some (FR r) -> nth_error (mack_std_errors k) i = Some (FR 0) ->
  exists cs, mack_data_transform ppf dist k = Ok cs /\ points o cs = [].
Proof.
  intros ppf k i o r dist Hd N Ho Hr He.
  destruct Hd as [-> | ->].
  - destruct (transform_points ppf "norm" k _ i o _ N eq_refl Ho (rvs_nth fit_norm k i _ _ Hr He)) as (cs & E & P).
    exists cs. split; [exact E|]. rewrite P, curve_nan; [reflexivity|].
    unfold rv_ppf, fit_norm. destruct (Rlt_dec 0 0); [lra|reflexivity].
  - destruct (transform_points ppf "lognorm" k _ i o _ N eq_refl Ho (rvs_nth fit_lognorm k i _ _ Hr He)) as (cs & E & P).
    exists cs. split; [exact E|]. rewrite P, curve_nan; [reflexivity|].
    unfold fit_lognorm.
    assert (S0 : fnan0 (fsqrt (flog (fadd 1 (fsq (fdiv (FR 0) (FR r)))))) = FR 0).
    { cbn [fdiv]. destruct (Req_EM_T r 0).
      - destruct (Req_EM_T 0 0); [reflexivity|lra].
      - cbn [fsq fadd flog]. replace (1 + 0 / r * (0 / r)) with 1 by (field; assumption).
        destruct (Rlt_dec 1 0); [lra|]. destruct (Req_EM_T 1 0); [lra|]. rewrite ln_1. cbn [fsqrt].
        destruct (Rlt_dec 0 0); [lra|]. rewrite sqrt_0. reflexivity. }
    rewrite S0. unfold rv_ppf. match goal with |- context [fexp ?m] => destruct (fexp m) end; try reflexivity.
    destruct (Rlt_dec 0 0); [lra|reflexivity].
Qed.

Lemma c70_plot_raises : forall m cl k, exists e, mack_plot m cl k = Err e.
Proof.
  intros m cl k. unfold mack_plot. destruct (data_transform m cl (k_cl k)); cbn [bind]; eexists; reflexivity.
Qed.
Lemma c70_diagnostics_raises : forall ppf dist k, exists e, mack_diagnostics ppf dist k = Err e.
Proof.
  intros. unfold mack_diagnostics. destruct (mack_data_transform ppf dist k); cbn [bind]; eexists; reflexivity.
Qed.
Local Close Scope R_scope.

(** * C71 *)
Lemma frame_cols (l : list rec) (f := recs_frame "origin" "dev" "value" l) :
  fint f "origin" = Ok (map r_o l) /\ fint f "dev" = Ok (map r_d l) /\ fval f "value" = Ok (map r_v l).
Proof. repeat split. Qed.

Lemma rows_combine (l : list rec) :
  combine (map r_o l) (combine (map r_d l) (map r_v l)) = map (fun r => (r_o r, (r_d r, r_v r))) l.
Proof. induction l as [|r l IH]; cbn; [reflexivity|]. f_equal. exact IH. Qed.

Lemma line_of os ds f o : NoDup os -> In o os ->
  map snd (filter (fun r => (fst r =? o)%Z) (map (fun r => (r_o r, (r_d r, r_v r))) (tbl os ds f))) = seen ds f o.
Proof.
  intros N Ho.
  assert (A : filter (fun r => (r_o r =? o)%Z) (tbl os ds f) = row_tbl ds f o).
  { unfold tbl. induction os as [|o' os IH]; [destruct Ho|]. cbn [flat_map]. rewrite filter_app.
    inversion N as [|? ? Ni Nl]; subst. destruct (Z.eq_dec o' o) as [->|D].
    - rewrite filter_all, filter_none; [apply app_nil_r| |].
      + intros r Hr. apply (in_tbl os ds f) in Hr as (B & _). apply Z.eqb_neq. intros <-. contradiction.
      + intros r Hr. apply in_row_tbl in Hr as (B & _). apply Z.eqb_eq. exact B.
    - rewrite filter_none; [apply IH; [exact Nl|destruct Ho; [contradiction|assumption]]|].
      intros r Hr. apply in_row_tbl in Hr as (B & _). apply Z.eqb_neq. congruence. }
  assert (B : forall l : list rec, map snd (filter (fun r => (fst r =? o)%Z) (map (fun r => (r_o r, (r_d r, r_v r))) l))
              = map (fun r => (r_d r, r_v r)) (filter (fun r => (r_o r =? o)%Z) l)).
  { induction l as [|r l IH]; [reflexivity|]. cbn [map filter fst]. destruct (r_o r =? o)%Z; cbn [map snd]; rewrite IH; reflexivity. }
  rewrite B, A. unfold row_tbl, seen. clear. induction ds as [|d ds IH]; [reflexivity|]. cbn [map filter].
  change (r_v (mkrec o d (f o d))) with (f o d). cbn [snd].
  destruct (f o d) eqn:E; cbn [isnan negb map]; try (rewrite IH); try reflexivity;
    f_equal; try exact IH; try (unfold r_d, r_v, mkrec; cbn; rewrite E; reflexivity).
Qed.

Lemma seen_none ds f o : seen ds f o = [] <-> (forall d, In d ds -> f o d = NaN).
Proof.
  unfold seen. induction ds as [|d ds IH]; cbn [map filter snd]; [split; [intros _ d []|reflexivity]|].
  destruct (f o d) eqn:E; try (split; [discriminate|intro H; rewrite H in E by (left; reflexivity); discriminate]).
  rewrite IH. split; intros H e; [intros [<-|Hi]; auto|intro; apply H; right; assumption].
Qed.

Lemma tbl_origin os ds f o : In o (map r_o (tbl os ds f)) <-> In o os /\ seen ds f o <> [].
Proof.
  rewrite in_map_iff. split.
  - intros (r & <- & Hr). apply in_tbl in Hr as (A & B & C & D). split; [exact A|].
    intro H. apply D. rewrite C. apply (proj1 (seen_none ds f (r_o r)) H). exact B.
  - intros (A & B). destruct (seen ds f o) as [|[d v] l] eqn:E; [congruence|].
    assert (H : In (d, v) (seen ds f o)) by (rewrite E; left; reflexivity).
    unfold seen in H. apply filter_In in H. destruct H as [H N]. apply in_map_iff in H. destruct H as (d' & Ed & Hd).
    injection Ed as -> <-. cbn [snd] in N. exists (mkrec o d (f o d)). split; [reflexivity|].
    apply in_tbl. cbn. repeat split; auto. destruct (f o d); congruence.
Qed.

Lemma tbl_ticks os ds f : ticks_of os ds f (uniq Z.compare (map r_d (tbl os ds f))).
Proof.
  split; [apply zuniq_sorted|]. intro d. rewrite zuniq_in, in_map_iff. split.
  - intros (r & <- & Hr). apply in_tbl in Hr as (A & B & C & D). split; [exact B|]. exists (r_o r). split; [exact A|congruence].
  - intros (A & o & B & C). exists (mkrec o d (f o d)). split; [reflexivity|]. apply in_tbl. cbn. auto.
Qed.

Definition shown (ds : list Z) (f : Z -> Z -> val) (o : Z) : bool :=
  match seen ds f o with [] => false | _ => true end.

Lemma zsorted_filter p l : zsorted l -> zsorted (filter p l).
Proof.
  unfold zsorted. induction 1 as [|x l H IH F]; cbn [filter]; [constructor|]. destruct (p x); [|exact IH].
  constructor; [exact IH|]. rewrite Forall_forall in *. intros y Hy. apply F. apply filter_In in Hy. apply Hy.
Qed.

Lemma c71_faceted m os ds f display : increasing os -> increasing ds -> holds m os ds f ->
  String.prefix "f" display = true ->
  exists ticks, plot_lines (mkTri m "origin" "dev" "value") display
     = Ok (map (fun o => (o, seen ds f o)) (filter (shown ds f) os), ticks) /\ ticks_of os ds f ticks.
Proof.
  intros So Sd H P. unfold plot_lines. rewrite P. unfold faceted_view, to_tbl. cbn [t_o t_d t_v t_mat String.eqb Ascii.eqb Bool.eqb].
  cbn [bind]. rewrite (to_tbl_recs_tbl m os ds f H So Sd).
  destruct (frame_cols (tbl os ds f)) as (E1 & E2 & E3). rewrite E1. cbn [bind]. rewrite E2. cbn [bind]. rewrite E3. cbn [bind].
  rewrite rows_combine. eexists. split; [|apply tbl_ticks]. do 2 f_equal.
  assert (U : uniq Z.compare (map r_o (tbl os ds f)) = filter (shown ds f) os).
  { change (uniq Z.compare) with zuniq. rewrite <- (zuniq_id (filter (shown ds f) os)) by (apply zsorted_filter; exact So).
    apply zuniq_ext. intro o. rewrite tbl_origin, filter_In. unfold shown.
    destruct (seen ds f o); split; intros [A B]; split; auto; try congruence; discriminate. }
  rewrite U. apply map_ext_in. intros o Ho. f_equal. apply line_of; [apply zsorted_nodup, So|].
  apply filter_In in Ho. apply Ho.
Qed.

Lemma mapM_ok (os present : list Z) : (forall o, In o os -> In o present) ->
  mapM (fun o => if existsb (Z.eqb o) present then Ok o else Err KeyError) os = Ok os.
Proof.
  induction os as [|o os IH]; intro H; [reflexivity|]. cbn [mapM].
  assert (E : existsb (Z.eqb o) present = true).
  { apply existsb_exists. exists o. split; [apply H; left; reflexivity|apply Z.eqb_refl]. }
  rewrite E. cbn [bind]. rewrite IH by (intros; apply H; right; assumption). reflexivity.
Qed.
Lemma mapM_err (os present : list Z) : (exists o, In o os /\ ~ In o present) ->
  mapM (fun o => if existsb (Z.eqb o) present then Ok o else Err KeyError) os = Err KeyError.
Proof.
  induction os as [|o os IH]; intros (x & Hx & Hn); [destruct Hx|]. cbn [mapM].
  destruct (existsb (Z.eqb o) present) eqn:E; [|reflexivity]. cbn [bind].
  rewrite IH; [reflexivity|]. exists x. split; [|exact Hn]. destruct Hx as [<-|Hx]; [|exact Hx].
  exfalso. apply Hn. apply existsb_exists in E. destruct E as (y & Hy & Ey). apply Z.eqb_eq in Ey. subst. exact Hy.
Qed.

Lemma c71_combined m os ds f display : increasing os -> increasing ds -> holds m os ds f ->
  String.prefix "f" display = false ->
  (forall o, In o os -> seen ds f o <> []) ->
  exists ticks, plot_lines (mkTri m "origin" "dev" "value") display
     = Ok (map (fun o => (o, seen ds f o)) os, ticks) /\ ticks_of os ds f ticks.
Proof.
  intros So Sd H P Hc. unfold plot_lines. rewrite P. unfold combined_view, to_tbl.
  cbn [t_o t_d t_v t_mat String.eqb Ascii.eqb Bool.eqb].
  cbn [bind]. rewrite (to_tbl_recs_tbl m os ds f H So Sd).
  destruct (frame_cols (tbl os ds f)) as (E1 & E2 & E3). rewrite E1. cbn [bind].
  assert (Ei : m_idx m = os) by apply H.
  rewrite Ei, mapM_ok by (intros o Ho; apply tbl_origin; auto). cbn [bind].
  rewrite E2. cbn [bind]. rewrite E3. cbn [bind].
  rewrite rows_combine. eexists. split; [|apply tbl_ticks]. do 2 f_equal.
  apply map_ext_in. intros o Ho. f_equal. apply line_of; [apply zsorted_nodup, So|exact Ho].
Qed.

Lemma c71_missing m os ds f display o : increasing os -> increasing ds -> holds m os ds f ->
  String.prefix "f" display = false -> In o os -> (forall d, In d ds -> f o d = NaN) ->
  plot_lines (mkTri m "origin" "dev" "value") display = Err KeyError.
Proof.
  intros So Sd H P Ho Hn. unfold plot_lines. rewrite P. unfold combined_view, to_tbl.
  cbn [t_o t_d t_v t_mat String.eqb Ascii.eqb Bool.eqb].
  cbn [bind]. rewrite (to_tbl_recs_tbl m os ds f H So Sd).
  destruct (frame_cols (tbl os ds f)) as (E1 & E2 & E3). rewrite E1. cbn [bind].
  assert (Ei : m_idx m = os) by apply H.
  rewrite Ei, mapM_err; [reflexivity|]. exists o. split; [exact Ho|]. rewrite tbl_origin. intros [_ A]. apply A.
  apply seen_none, Hn.
Qed.
