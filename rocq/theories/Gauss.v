(* The Gaussian integral and the moments of the standard normal law that the
   distribution claims need.  Nothing here models code of the repository: it
   is the mathematics that gives the words "mean" and "variance" of
   [SpecDist.v] their values.  Uses the reals of the standard library, through
   Coquelicot. *)
From Coq Require Import Reals Lra Psatz.
From Coquelicot Require Import Coquelicot.
From Verif Require Import SpecDist.

Local Open Scope R_scope.

(* ------------------------------------------------------------------ *)
(** * The integral of exp (-t^2) *)

Ltac onR := match goal with |- @eq _ ?a ?b => change (@eq R a b) end.

Definition g0 (t : R) : R := exp (- (t * t)).

Lemma g0_cont : forall x, continuous g0 x.
Proof.
  intro x. apply (ex_derive_continuous g0). unfold g0. auto_derive. trivial.
Qed.

Lemma ex_RInt_cont_all : forall (f : R -> R) a b,
  (forall x, continuous f x) -> ex_RInt f a b.
Proof. intros f a b H. apply (ex_RInt_continuous f). intros z _. apply H. Qed.

Lemma RInt_scal_R : forall (f : R -> R) c a b, (forall x, continuous f x) ->
  RInt (fun x => c * f x) a b = c * RInt f a b.
Proof.
  intros f c a b H.
  exact (RInt_scal f a b c (ex_RInt_cont_all f a b H)).
Qed.

Lemma RInt_lin_R : forall (f : R -> R) u v a b, (forall x, continuous f x) ->
  RInt (fun y => u * f (u * y + v)) a b = RInt f (u * a + v) (u * b + v).
Proof.
  intros f u v a b H.
  exact (RInt_comp_lin f u v a b (ex_RInt_cont_all f _ _ H)).
Qed.

Definition A0 (x : R) : R := RInt g0 0 x.

Lemma prim_derive : forall (f : R -> R) x,
  (forall x, continuous f x) -> is_derive (fun y => RInt f 0 y) x (f x).
Proof.
  intros f x H. apply (is_derive_RInt f (fun y => RInt f 0 y) 0 x).
  - apply filter_forall. intro y. apply (RInt_correct f).
    apply ex_RInt_cont_all, H.
  - apply H.
Qed.

Definition h0 (x t : R) : R := exp (- (x * x) * (1 + t * t)) / (1 + t * t).

Lemma den : forall t, 1 + t * t <> 0.
Proof. intro t. nra. Qed.

Lemma h0_cont : forall x t, continuous (h0 x) t.
Proof.
  intros x t. apply (ex_derive_continuous (h0 x)). unfold h0.
  auto_derive. apply den.
Qed.

Definition B0 (x : R) : R := RInt (h0 x) 0 1.

Lemma h0_derive : forall x t, is_derive (fun u => h0 u t) x
  (- 2 * x * exp (- (x * x) * (1 + t * t))).
Proof.
  intros x t. unfold h0. auto_derive; [trivial|].
  field. apply den.
Qed.

Lemma B0_derive : forall x, is_derive B0 x (- 2 * g0 x * A0 x).
Proof.
  intro x.
  assert (E : RInt (fun t => Derive (fun u => h0 u t) x) 0 1
              = - 2 * g0 x * A0 x).
  { transitivity (RInt (fun t => (- 2 * g0 x) * (x * g0 (x * t + 0))) 0 1).
    { apply RInt_ext. intros t _.
      etransitivity; [apply is_derive_unique, (h0_derive x t)|].
      unfold g0.
      replace (- (x * x) * (1 + t * t))
        with (- (x * x) + - ((x * t + 0) * (x * t + 0))) by ring.
      rewrite exp_plus. onR. ring. }
    rewrite (RInt_scal_R (fun t => x * g0 (x * t + 0))).
    2:{ intro t. apply (ex_derive_continuous (fun t => x * g0 (x * t + 0))).
        unfold g0. auto_derive. trivial. }
    rewrite (RInt_lin_R g0 x 0 0 1 g0_cont). unfold A0.
    rewrite Rmult_0_r, Rmult_1_r, !Rplus_0_r. reflexivity. }
  rewrite <- E. unfold B0.
  apply (is_derive_RInt_param h0 0 1 x).
  - apply filter_forall. intros y t _. eexists. apply h0_derive.
  - intros t _.
    apply (continuity_2d_pt_ext
             (fun u v => - 2 * u * exp (- (u * u) * (1 + v * v)))).
    { intros u v. symmetry. apply is_derive_unique, h0_derive. }
    apply continuity_2d_pt_mult.
    + apply continuity_2d_pt_mult;
        [apply continuity_2d_pt_const|apply continuity_2d_pt_id1].
    + apply (continuity_1d_2d_pt_comp exp).
      * apply derivable_continuous_pt, derivable_pt_exp.
      * apply continuity_2d_pt_mult.
        -- apply continuity_2d_pt_opp, continuity_2d_pt_mult;
             apply continuity_2d_pt_id1.
        -- apply continuity_2d_pt_plus; [apply continuity_2d_pt_const|].
           apply continuity_2d_pt_mult; apply continuity_2d_pt_id2.
  - apply filter_forall. intro y. apply ex_RInt_cont_all, h0_cont.
Qed.

Lemma AB_derive : forall x,
  is_derive (fun y => A0 y * A0 y + B0 y) x 0.
Proof.
  intro x.
  pose proof (prim_derive g0 x g0_cont) as HA.
  pose proof (B0_derive x) as HB.
  replace 0 with (plus (plus (mult (g0 x) (A0 x)) (mult (A0 x) (g0 x)))
                       (- 2 * g0 x * A0 x))
    by (unfold plus, mult; simpl; unfold mult; simpl; ring).
  apply (is_derive_plus (fun y => A0 y * A0 y) B0); [|exact HB].
  apply (is_derive_mult A0 A0); [exact HA|exact HA|].
  intros; apply Rmult_comm.
Qed.

Lemma AB_zero : A0 0 * A0 0 + B0 0 = PI / 4.
Proof.
  unfold A0. rewrite RInt_point. unfold zero; simpl.
  unfold B0.
  rewrite (RInt_ext _ (fun t => / (1 + Rsqr t))).
  2:{ intros t _. unfold h0, Rsqr. replace (- (0 * 0) * (1 + t * t)) with 0 by ring.
      rewrite exp_0. onR. field. apply den. }
  rewrite (is_RInt_unique _ _ _ (minus (atan 1) (atan 0))).
  - rewrite atan_1, atan_0. unfold minus, plus, opp; simpl. lra.
  - apply (is_RInt_derive atan (fun t => / (1 + Rsqr t))).
    + intros t _. apply is_derive_atan.
    + intros t _. apply (ex_derive_continuous (fun t => / (1 + Rsqr t))).
      unfold Rsqr. auto_derive. apply den.
Qed.

Lemma AB_const : forall x, 0 <= x -> A0 x * A0 x + B0 x = PI / 4.
Proof.
  intros x L. destruct (Req_dec x 0) as [->|N]; [apply AB_zero|].
  rewrite <- AB_zero. symmetry.
  apply (eq_is_derive (fun y => A0 y * A0 y + B0 y) 0 x); [|lra].
  intros t _. apply AB_derive.
Qed.

Lemma B0_bounds : forall x, 0 <= B0 x <= exp (- (x * x)).
Proof.
  intro x. unfold B0. split.
  - apply (RInt_ge_0 (h0 x)); [lra|apply ex_RInt_cont_all, h0_cont|].
    intros t _. unfold h0. apply Rlt_le, Rdiv_lt_0_compat;
      [apply exp_pos|nra].
  - replace (exp (- (x * x))) with (RInt (fun _ => exp (- (x * x))) 0 1).
    2:{ rewrite RInt_const. unfold scal; simpl; unfold mult; simpl. ring. }
    apply RInt_le; [lra|apply ex_RInt_cont_all, h0_cont|apply ex_RInt_const|].
    intros t [T0 T1]. unfold h0.
    apply (Rmult_le_reg_r (1 + t * t)); [nra|].
    unfold Rdiv. rewrite Rmult_assoc, Rinv_l by apply den.
    rewrite Rmult_1_r.
    assert (exp (- (x * x) * (1 + t * t)) <= exp (- (x * x))).
    { destruct (Req_dec (x * t) 0) as [Z|Z].
      - right. f_equal. nra.
      - left. apply exp_increasing. nra. }
    pose proof (exp_pos (- (x * x))). nra.
Qed.

Lemma A0_pos : forall x, 0 <= x -> 0 <= A0 x.
Proof.
  intros x L. apply (RInt_ge_0 g0); [exact L|apply ex_RInt_cont_all, g0_cont|].
  intros t _. apply Rlt_le, exp_pos.
Qed.

Lemma A0_sqrt : forall x, 0 <= x -> A0 x = sqrt (PI / 4 - B0 x).
Proof.
  intros x L. symmetry. apply sqrt_lem_1.
  - pose proof (AB_const x L). pose proof (A0_pos x L). nra.
  - apply A0_pos, L.
  - pose proof (AB_const x L). lra.
Qed.

(** exp (-y) is at most 1/y. *)
Lemma exp_neg_bound : forall y, 0 < y -> exp (- y) <= / y.
Proof.
  intros y L. rewrite exp_Ropp. apply Rinv_le_contravar; [exact L|].
  pose proof (exp_ineq1 y). lra.
Qed.

Lemma is_lim_inv_p : is_lim (fun x => / x) p_infty 0.
Proof.
  replace (Finite 0) with (Rbar_inv p_infty) by reflexivity.
  apply (is_lim_inv (fun x => x)); [apply is_lim_id|discriminate].
Qed.

Lemma B0_lim : is_lim B0 p_infty 0.
Proof.
  apply (is_lim_le_le_loc (fun _ => 0) (fun x => / x)).
  - exists 1. intros x L. split; [apply B0_bounds|].
    eapply Rle_trans; [apply B0_bounds|].
    eapply Rle_trans; [apply exp_neg_bound; nra|].
    apply Rinv_le_contravar; nra.
  - apply is_lim_const.
  - apply is_lim_inv_p.
Qed.

Lemma A0_lim : is_lim A0 p_infty (sqrt PI / 2).
Proof.
  apply (is_lim_ext_loc (fun x => sqrt (PI / 4 - B0 x))).
  { exists 0. intros x L. symmetry. apply A0_sqrt. lra. }
  assert (E : sqrt PI / 2 = sqrt (PI / 4 - 0)).
  { replace (PI / 4 - 0) with (PI / (2 * 2)) by field.
    rewrite sqrt_div_alt by lra. rewrite sqrt_square by lra. reflexivity. }
  rewrite E.
  apply (is_lim_comp_continuous B0 (fun y => sqrt (PI / 4 - y)) p_infty 0).
  - apply B0_lim.
  - apply continuous_sqrt_comp.
    apply (continuous_minus (fun _ => PI / 4) (fun y => y));
      [apply continuous_const|apply continuous_id].
Qed.

(* ------------------------------------------------------------------ *)
(** * The standard normal density *)

Lemma two_pi : 0 < sqrt (2 * PI).
Proof. apply sqrt_lt_R0. pose proof PI_RGT_0. lra. Qed.

Lemma phi_pos : forall z, 0 < phi z.
Proof. intro z. apply Rdiv_lt_0_compat; [apply exp_pos|apply two_pi]. Qed.

Lemma phi_derive : forall z, is_derive phi z (- z * phi z).
Proof.
  intro z. unfold phi. pose proof two_pi. auto_derive; [trivial|].
  unfold Rdiv. onR. field. lra.
Qed.

Lemma phi_cont : forall z, continuous phi z.
Proof. intro z. apply (ex_derive_continuous phi). eexists. apply phi_derive. Qed.

Lemma phi_even : forall z, phi (- z) = phi z.
Proof. intro z. unfold phi. do 2 f_equal. field. Qed.

Definition Phi0 (x : R) : R := RInt phi 0 x.

Lemma Phi0_derive : forall x, is_derive Phi0 x (phi x).
Proof. intro x. apply (prim_derive phi), phi_cont. Qed.

Lemma Phi0_A0 : forall x, Phi0 x = A0 (x / sqrt 2) / sqrt PI.
Proof.
  intro x. unfold Phi0, A0.
  assert (S2 : 0 < sqrt 2) by (apply sqrt_lt_R0; lra).
  assert (SP : 0 < sqrt PI) by (apply sqrt_lt_R0, PI_RGT_0).
  replace (RInt g0 0 (x / sqrt 2))
    with (RInt g0 (/ sqrt 2 * 0 + 0) (/ sqrt 2 * x + 0))
    by (f_equal; field; lra).
  rewrite <- (RInt_lin_R g0 (/ sqrt 2) 0 0 x g0_cont).
  transitivity (RInt (fun t => / sqrt PI * (/ sqrt 2 * g0 (/ sqrt 2 * t + 0))) 0 x).
  { apply RInt_ext. intros t _. unfold phi, g0.
    rewrite sqrt_mult by (pose proof PI_RGT_0; lra).
    replace (- ((/ sqrt 2 * t + 0) * (/ sqrt 2 * t + 0)))
      with (- (t * t) / 2).
    - onR. field. split; lra.
    - rewrite <- (sqrt_sqrt 2) at 1 by lra. field. lra. }
  rewrite (RInt_scal_R (fun t => / sqrt 2 * g0 (/ sqrt 2 * t + 0))).
  - field. lra.
  - intro t.
    apply (ex_derive_continuous (fun t => / sqrt 2 * g0 (/ sqrt 2 * t + 0))).
    unfold g0. auto_derive. trivial.
Qed.

Lemma Phi0_odd : forall x, Phi0 (- x) = - Phi0 x.
Proof.
  intro x. unfold Phi0.
  replace (RInt phi 0 (- x)) with (RInt phi (-1 * 0 + 0) (-1 * x + 0))
    by (f_equal; ring).
  rewrite <- (RInt_lin_R phi (-1) 0 0 x phi_cont).
  transitivity (RInt (fun t => -1 * phi t) 0 x).
  - apply RInt_ext. intros t _. f_equal.
    replace (-1 * t + 0) with (- t) by ring. apply phi_even.
  - rewrite (RInt_scal_R phi _ _ _ phi_cont). ring.
Qed.

Lemma lim_m_of_p : forall (f : R -> R) (l : R),
  is_lim (fun x => f (- x)) p_infty l -> is_lim f m_infty l.
Proof.
  intros f l H.
  apply (is_lim_ext (fun x => f (- (- x)))).
  { intro y. f_equal. ring. }
  apply (is_lim_comp (fun y => f (- y)) (fun x => - x) m_infty l p_infty).
  - exact H.
  - apply (is_lim_opp (fun x => x) m_infty m_infty). apply is_lim_id.
  - exists 0. intros y _. discriminate.
Qed.

Lemma Phi0_lim_p : is_lim Phi0 p_infty (1 / 2).
Proof.
  apply (is_lim_ext (fun x => A0 (x / sqrt 2) / sqrt PI)).
  { intro y. symmetry. apply Phi0_A0. }
  assert (S2 : 0 < sqrt 2) by (apply sqrt_lt_R0; lra).
  assert (SP : 0 < sqrt PI) by (apply sqrt_lt_R0, PI_RGT_0).
  replace (Finite (1 / 2)) with (Rbar_mult (sqrt PI / 2) (/ sqrt PI)).
  2:{ simpl. f_equal. field. lra. }
  apply (is_lim_scal_r (fun x => A0 (x / sqrt 2)) (/ sqrt PI)).
  apply (is_lim_comp A0 (fun x => x / sqrt 2) p_infty (sqrt PI / 2) p_infty).
  - exact A0_lim.
  - apply is_lim_spec. intro M. exists (M * sqrt 2). intros x L.
    apply (Rmult_lt_reg_r (sqrt 2)); [exact S2|].
    unfold Rdiv. rewrite Rmult_assoc, Rinv_l by lra. lra.
  - exists 0. intros y _. discriminate.
Qed.

Lemma Phi0_lim_m : is_lim Phi0 m_infty (- (1 / 2)).
Proof.
  apply lim_m_of_p. apply (is_lim_ext (fun x => - Phi0 x)).
  { intro y. symmetry. apply Phi0_odd. }
  apply (is_lim_opp Phi0 p_infty (1 / 2)). exact Phi0_lim_p.
Qed.

(** phi x and x * phi x vanish at both ends. *)
Lemma xphi_bound : forall x, 0 < x -> 0 <= x * phi x <= 2 / sqrt (2 * PI) * / x.
Proof.
  intros x L. pose proof (phi_pos x). pose proof two_pi. split; [nra|].
  unfold phi.
  replace (- (x * x) / 2) with (- ((x * x) / 2)) by field.
  assert (B : exp (- (x * x / 2)) <= / (x * x / 2))
    by (apply exp_neg_bound; nra).
  replace (2 / sqrt (2 * PI) * / x) with (x * (/ (x * x / 2) / sqrt (2 * PI)))
    by (field; lra).
  apply Rmult_le_compat_l; [lra|].
  apply Rmult_le_compat_r; [apply Rlt_le, Rinv_0_lt_compat; lra|exact B].
Qed.

Lemma inv_scaled_lim : forall c, is_lim (fun x => c * / x) p_infty 0.
Proof.
  intro c. replace (Finite 0) with (Rbar_mult c 0).
  - apply (is_lim_scal_l (fun x => / x) c). apply is_lim_inv_p.
  - simpl. f_equal. ring.
Qed.

Lemma xphi_lim_p : is_lim (fun x => x * phi x) p_infty 0.
Proof.
  apply (is_lim_le_le_loc (fun _ => 0) (fun x => 2 / sqrt (2 * PI) * / x)).
  - exists 0. intros x L. apply xphi_bound. exact L.
  - apply is_lim_const.
  - apply inv_scaled_lim.
Qed.

Lemma xphi_lim_m : is_lim (fun x => x * phi x) m_infty 0.
Proof.
  apply lim_m_of_p. apply (is_lim_ext (fun x => - (x * phi x))).
  { intro y. rewrite phi_even. ring. }
  replace (Finite 0) with (Rbar_opp 0) by (simpl; f_equal; ring).
  apply (is_lim_opp (fun x => x * phi x)). exact xphi_lim_p.
Qed.

Lemma phi_lim_p : is_lim phi p_infty 0.
Proof.
  apply (is_lim_le_le_loc (fun _ => 0) (fun x => 2 / sqrt (2 * PI) * / x)).
  - exists 1. intros x L. pose proof (phi_pos x). split; [lra|].
    eapply Rle_trans; [|apply xphi_bound; lra]. nra.
  - apply is_lim_const.
  - apply inv_scaled_lim.
Qed.

Lemma phi_lim_m : is_lim phi m_infty 0.
Proof.
  apply lim_m_of_p. apply (is_lim_ext phi).
  { intro y. symmetry. apply phi_even. }
  exact phi_lim_p.
Qed.

(* ------------------------------------------------------------------ *)
(** * Integrals over the whole line *)

Lemma line_prim : forall (F f : R -> R) (lm lp : R),
  (forall x, is_derive F x (f x)) -> (forall x, continuous f x) ->
  is_lim F m_infty lm -> is_lim F p_infty lp -> line f (lp - lm).
Proof.
  intros F f lm lp HD HC Hm Hp. unfold line.
  apply (is_RInt_gen_ext (Derive F) f).
  { apply filter_forall. intros ab x _. apply is_derive_unique, HD. }
  apply is_RInt_gen_Derive.
  - apply filter_forall. intros ab x _. eexists. apply HD.
  - apply filter_forall. intros ab x _.
    apply (continuous_ext f); [|apply HC].
    intro y. symmetry. apply is_derive_unique, HD.
  - exact Hm.
  - exact Hp.
Qed.

Lemma line_ext : forall f g l, (forall x, f x = g x) -> line f l -> line g l.
Proof.
  intros f g l E H. apply (is_RInt_gen_ext f g); [|exact H].
  apply filter_forall. intros ab x _. apply E.
Qed.

Lemma line_plus : forall f g a b, line f a -> line g b ->
  line (fun x => f x + g x) (a + b).
Proof. intros f g a b Hf Hg. exact (is_RInt_gen_plus f g a b Hf Hg). Qed.

Lemma line_scal : forall f c a, line f a -> line (fun x => c * f x) (c * a).
Proof. intros f c a Hf. exact (is_RInt_gen_scal f c a Hf). Qed.

Lemma line_unique : forall f a b, line f a -> line f b -> a = b.
Proof.
  intros f a b Ha Hb.
  rewrite <- (is_RInt_gen_unique f a Ha). apply (is_RInt_gen_unique f b Hb).
Qed.

Lemma line_phi : line phi 1.
Proof.
  replace 1 with (1 / 2 - - (1 / 2)) by field.
  apply (line_prim Phi0); [exact Phi0_derive|exact phi_cont|
    exact Phi0_lim_m|exact Phi0_lim_p].
Qed.

Lemma line_zphi : line (fun z => z * phi z) 0.
Proof.
  apply (line_ext (fun z => (-1) * (- z * phi z))); [intro; ring|].
  replace 0 with ((-1) * (0 - 0)) by ring.
  apply (line_scal (fun z => - z * phi z)).
  apply (line_prim phi).
  - exact phi_derive.
  - intro x. apply (ex_derive_continuous (fun z => - z * phi z)).
    unfold phi. auto_derive. trivial.
  - exact phi_lim_m.
  - exact phi_lim_p.
Qed.

Lemma xphi_derive : forall z,
  is_derive (fun z => z * phi z) z (phi z - z * z * phi z).
Proof.
  intro z.
  replace (phi z - z * z * phi z)
    with (plus (mult 1 (phi z)) (mult z (- z * phi z)))
    by (unfold plus, mult; simpl; unfold mult; simpl; ring).
  apply (is_derive_mult (fun z => z) phi).
  - apply (is_derive_id z).
  - apply phi_derive.
  - intros; apply Rmult_comm.
Qed.

Lemma zzphi_cont : forall x, continuous (fun z => z * z * phi z) x.
Proof.
  intro x. apply (ex_derive_continuous (fun z => z * z * phi z)).
  pose proof two_pi. unfold phi. auto_derive. trivial.
Qed.

Lemma line_zzphi : line (fun z => z * z * phi z) 1.
Proof.
  apply (line_ext (fun z => phi z + (-1) * (phi z - z * z * phi z)));
    [intro; ring|].
  replace 1 with (1 + (-1) * (0 - 0)) at 1 by ring.
  apply line_plus; [exact line_phi|].
  apply (line_scal (fun z => phi z - z * z * phi z)).
  apply (line_prim (fun z => z * phi z)).
  - exact xphi_derive.
  - intro x. apply (continuous_minus phi (fun z => z * z * phi z));
      [apply phi_cont|apply zzphi_cont].
  - exact xphi_lim_m.
  - exact xphi_lim_p.
Qed.

Lemma shift_lim_p : forall (f : R -> R) (l : R) a,
  is_lim f p_infty l -> is_lim (fun x => f (x - a)) p_infty l.
Proof.
  intros f l a H.
  apply (is_lim_comp f (fun x => x - a) p_infty l p_infty); [exact H| |].
  - apply (is_lim_minus (fun x => x) (fun _ => a) p_infty p_infty a);
      [apply is_lim_id|apply is_lim_const|reflexivity].
  - exists 0. intros y _. discriminate.
Qed.

Lemma shift_lim_m : forall (f : R -> R) (l : R) a,
  is_lim f m_infty l -> is_lim (fun x => f (x - a)) m_infty l.
Proof.
  intros f l a H.
  apply (is_lim_comp f (fun x => x - a) m_infty l m_infty); [exact H| |].
  - apply (is_lim_minus (fun x => x) (fun _ => a) m_infty m_infty a);
      [apply is_lim_id|apply is_lim_const|reflexivity].
  - exists 0. intros y _. discriminate.
Qed.

(** The moment generating function of the standard normal law. *)
Lemma line_mgf : forall a, line (fun z => exp (a * z) * phi z) (exp (a * a / 2)).
Proof.
  intro a.
  apply (line_ext (fun z => exp (a * a / 2) * phi (z - a))).
  { intro z. unfold phi. unfold Rdiv.
    rewrite <- !Rmult_assoc, <- !exp_plus. do 2 f_equal. field. }
  replace (exp (a * a / 2)) with (exp (a * a / 2) * (1 / 2 - - (1 / 2))) at 1
    by field.
  apply (line_scal (fun z => phi (z - a))).
  apply (line_prim (fun z => Phi0 (z - a))).
  - intro x.
    replace (phi (x - a)) with (scal 1 (phi (x - a)))
      by (unfold scal; simpl; unfold mult; simpl; ring).
    apply (is_derive_comp Phi0 (fun z => z - a)); [apply Phi0_derive|].
    auto_derive; [trivial|ring].
  - intro x. apply (continuous_comp (fun z => z - a) phi); [|apply phi_cont].
    apply (continuous_minus (fun z => z) (fun _ => a));
      [apply continuous_id|apply continuous_const].
  - apply shift_lim_m, Phi0_lim_m.
  - apply shift_lim_p, Phi0_lim_p.
Qed.
