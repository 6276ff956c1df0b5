(** Probabilities of intervals under the standard normal law. *)
From Coq Require Import Reals Lra Psatz.
From Coquelicot Require Import Coquelicot.
From Verif Require Import SpecDist Gauss SpecTail.

Local Open Scope R_scope.

(** f is phi left of v and 0 right of it *)
Lemma gen_phi_left : forall v f, (forall x, x < v -> f x = phi x) ->
  is_RInt_gen f (Rbar_locally m_infty) (at_point v) (Phi0 v + 1 / 2).
Proof.
  intros v f H.
  apply (is_RInt_gen_ext (Derive Phi0) f).
  { exists (fun a => a < v) (fun b => b = v).
    - exists v. intros x Hx. exact Hx.
    - reflexivity.
    - intros a b Ha -> x. simpl. rewrite Rmin_left, Rmax_right by lra. intros [_ L].
      rewrite H by exact L. apply is_derive_unique, Phi0_derive. }
  replace (Phi0 v + 1 / 2) with (Phi0 v - - (1 / 2)) by lra.
  apply (is_RInt_gen_Derive Phi0).
  - apply filter_forall. intros ab x _. eexists. apply Phi0_derive.
  - apply filter_forall. intros ab x _. apply (continuous_ext phi); [|apply phi_cont].
    intro y. symmetry. apply is_derive_unique, Phi0_derive.
  - exact Phi0_lim_m.
  - intros P HP. unfold filtermap, at_point. apply locally_singleton. exact HP.
Qed.

Lemma gen_zero_right : forall v f, (forall x, v < x -> f x = 0) ->
  is_RInt_gen f (at_point v) (Rbar_locally p_infty) 0.
Proof.
  intros v f H.
  apply (is_RInt_gen_ext (Derive (fun _ => 0)) f).
  { exists (fun a => a = v) (fun b => v < b).
    - reflexivity.
    - exists v. intros x Hx. exact Hx.
    - intros a b -> Hb x. simpl. rewrite Rmin_left, Rmax_right by lra. intros [L _].
      rewrite H by exact L. apply Derive_const. }
  cut (is_RInt_gen (Derive (fun _ => 0)) (at_point v) (Rbar_locally p_infty) (0 - 0)).
  { rewrite Rminus_0_r. auto. }
  apply (is_RInt_gen_Derive (fun _ => 0)).
  - apply filter_forall. intros ab x _. apply ex_derive_const.
  - apply filter_forall. intros ab x _. apply (continuous_ext (fun _ => 0)); [|apply continuous_const].
    intro y. symmetry. apply Derive_const.
  - intros P HP. unfold filtermap, at_point. apply locally_singleton. exact HP.
  - intros P HP. unfold filtermap. apply filter_forall. intros _. apply locally_singleton. exact HP.
Qed.

Lemma line_left : forall v f, (forall x, x < v -> f x = phi x) -> (forall x, v < x -> f x = 0) ->
  line f (Phi0 v + 1 / 2).
Proof.
  intros v f L R0. unfold line.
  replace (Phi0 v + 1 / 2) with (plus (Phi0 v + 1 / 2) 0) by (unfold plus; simpl; lra).
  apply (is_RInt_gen_Chasles f v); [apply gen_phi_left, L|apply gen_zero_right, R0].
Qed.

Lemma Phi0_lt : forall a b, a < b -> Phi0 a < Phi0 b.
Proof.
  intros a b H.
  apply (incr_function Phi0 m_infty p_infty phi); simpl; auto.
  - intros x _ _. apply Phi0_derive.
  - intros x _ _. apply phi_pos.
Qed.
Lemma Phi0_inj : forall a b, Phi0 a = Phi0 b -> a = b.
Proof. intros a b H. destruct (Rtotal_order a b) as [L|[E|L]]; auto; apply Phi0_lt in L; lra. Qed.
Lemma Phi0_lt_inv : forall a b, Phi0 a < Phi0 b -> a < b.
Proof.
  intros a b H. destruct (Rtotal_order a b) as [L|[E|L]]; auto; [subst; lra|]. apply Phi0_lt in L; lra.
Qed.
Lemma Phi0_0 : Phi0 0 = 0.
Proof. unfold Phi0. apply (RInt_point (V := R_CompleteNormedModule)). Qed.

Lemma prob_le_iff : forall x p, prob_le (fun z => z) x p <-> p = Phi0 x + 1 / 2.
Proof.
  intros x p.
  assert (H : prob_le (fun z => z) x (Phi0 x + 1 / 2)).
  { apply line_left; intros y L; destruct (Rle_dec y x); lra. }
  split; [intro K; exact (line_unique _ _ _ K H)|intros ->; exact H].
Qed.

(** X at most x exactly when the variate is at most v *)
Lemma prob_le_at : forall X x v, (forall z, z < v -> X z <= x) -> (forall z, v < z -> x < X z) ->
  prob_le X x (Phi0 v + 1 / 2).
Proof.
  intros X x v A B. apply line_left; intros z L.
  - destruct (Rle_dec (X z) x); [reflexivity|]. exfalso. apply A in L. lra.
  - destruct (Rle_dec (X z) x); [|reflexivity]. exfalso. apply B in L. lra.
Qed.

Lemma prob_between_at : forall X a b u v, u <= v ->
  (forall z, u < z < v -> a <= X z <= b) -> (forall z, z < u -> X z < a) -> (forall z, v < z -> b < X z) ->
  prob_between X a b (Phi0 v - Phi0 u).
Proof.
  intros X a b u v L A B C.
  pose (f := fun z => if Rlt_dec z u then phi z else if Req_EM_T z u then
      (if Rle_dec z v then phi z else 0) - (if Rle_dec a (X z) then if Rle_dec (X z) b then phi z else 0 else 0) else 0).
  assert (Hf : line f (Phi0 u + 1 / 2)).
  { apply line_left; intros z Hz; unfold f; destruct (Rlt_dec z u); try lra; destruct (Req_EM_T z u); lra. }
  pose (g := fun z => (if Rle_dec a (X z) then if Rle_dec (X z) b then phi z else 0 else 0) + f z).
  assert (Hg : line g (Phi0 v + 1 / 2)).
  { apply line_left; intros z Hz; unfold g, f.
    - destruct (Rlt_dec z u) as [h|h].
      + destruct (Rle_dec a (X z)); [|lra]. exfalso. apply B in h. lra.
      + destruct (Req_EM_T z u); [destruct (Rle_dec z v); lra|].
        destruct (A z) as [A1 A2]; [lra|]. destruct (Rle_dec a (X z)); [|lra]. destruct (Rle_dec (X z) b); lra.
    - destruct (Rlt_dec z u); [lra|]. destruct (Req_EM_T z u); [lra|].
      apply C in Hz. destruct (Rle_dec a (X z)); [|lra]. destruct (Rle_dec (X z) b); lra. }
  unfold prob_between.
  apply (line_ext (fun z => g z + (-1) * f z)).
  { intro z. unfold g. lra. }
  replace (Phi0 v - Phi0 u) with (Phi0 v + 1 / 2 + (-1) * (Phi0 u + 1 / 2)) by lra.
  apply line_plus; [exact Hg|]. apply line_scal, Hf.
Qed.

(** Quantiles exist (and are unique: [Phi0_inj]). *)
Lemma Phi0_onto : forall q, 0 < q < 1 -> exists x, Phi0 x + 1 / 2 = q.
Proof.
  intros q [A B].
  pose proof (proj2 (is_lim_spec _ _ _) Phi0_lim_p) as P. pose proof (proj2 (is_lim_spec _ _ _) Phi0_lim_m) as M.
  assert (e1 : 0 < 1 - q) by lra.
  destruct (P (mkposreal _ e1)) as [b Hb]. destruct (M (mkposreal _ A)) as [a Ha].
  specialize (Hb (Rmax (b + 1) (a + 1))). specialize (Ha (Rmin (a - 1) (b - 1))). simpl in Hb, Ha.
  set (y := Rmax (b + 1) (a + 1)) in *. set (x := Rmin (a - 1) (b - 1)) in *.
  assert (By : b + 1 <= y /\ a + 1 <= y) by (split; [apply Rmax_l|apply Rmax_r]).
  assert (Bx : x <= a - 1 /\ x <= b - 1) by (split; [apply Rmin_l|apply Rmin_r]).
  assert (Hy : Rabs (Phi0 y - 1 / 2) < 1 - q) by (apply Hb; lra).
  assert (Hx : Rabs (Phi0 x - - (1 / 2)) < q) by (apply Ha; lra).
  apply Rabs_def2 in Hy. apply Rabs_def2 in Hx.
  destruct (IVT_gen Phi0 x y (q - 1 / 2)) as [z [_ E]].
  - intro t. apply continuity_pt_filterlim. apply (ex_derive_continuous Phi0). eexists. apply Phi0_derive.
  - rewrite Rmin_left, Rmax_right by (left; apply Phi0_lt; lra). lra.
  - exists z. lra.
Qed.
