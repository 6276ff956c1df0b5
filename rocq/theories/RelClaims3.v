(** Proofs of C52 for every alpha: the exact effect of the currency unit on the mean
    squared errors. *)

From Coq Require Import String QArith Qcanon ZArith List Bool Lia Permutation Sorting.Sorted.
From Verif Require Import Val Frame Triangle A2A Base Mack ListLib QcLib Spec RegFacts AvgFacts AvgClaims2 BaseClaims
  MackFacts MackClaims MackClaims2 MackClaims3 MackExplicit RelFacts RelClaims.
Import ListNotations.
Open Scope list_scope.
Open Scope nat_scope.

Lemma pow_lt1 (c : Qc) k : (0 < c)%Qc -> (c < 1)%Qc -> (c ^ S k < 1)%Qc.
Proof.
  intros Hc H. induction k as [|k IH].
  - cbn [Qcpower]. rewrite Qcmult_1_r. exact H.
  - change (c ^ S (S k))%Qc with (c * c ^ S k)%Qc. assert (Pp := qpow_pos c (S k) Hc).
    set (p := (c ^ S k)%Qc) in *. clearbody p.
    assert (T : (c * p <= 1 * p)%Qc) by (apply Qcmult_le_compat_r; apply Qclt_le_weak; auto).
    rewrite Qcmult_1_l in T. eapply Qcle_lt_trans; eauto.
Qed.
Lemma pow_gt1 (c : Qc) k : (1 < c)%Qc -> (1 < c ^ S k)%Qc.
Proof.
  intros H. assert (Hc : (0 < c)%Qc) by (eapply Qclt_trans; [|exact H]; reflexivity). induction k as [|k IH].
  - cbn [Qcpower]. rewrite Qcmult_1_r. exact H.
  - change (c ^ S (S k))%Qc with (c * c ^ S k)%Qc. assert (Pp := qpow_pos c (S k) Hc).
    set (p := (c ^ S k)%Qc) in *. clearbody p.
    assert (T : (1 * p <= c * p)%Qc) by (apply Qcmult_le_compat_r; apply Qclt_le_weak; auto).
    rewrite Qcmult_1_l in T. eapply Qclt_le_trans; eauto.
Qed.
Lemma pow_is1 (c : Qc) k : (0 < c)%Qc -> (c ^ S k = 1)%Qc -> c = 1%Qc.
Proof.
  intros Hc E. destruct (Qc_dec c 1) as [[L|L]|L]; auto; exfalso.
  - assert (T := pow_lt1 c k Hc L). rewrite E in T. apply (Qclt_not_eq _ _ T). reflexivity.
  - assert (T := pow_gt1 c k L). rewrite E in T. apply (Qclt_not_eq _ _ T). reflexivity.
Qed.
Lemma pow_is2 (c : Qc) al : (0 < c)%Qc -> (c ^ S al = c ^ 2)%Qc -> al = 1 \/ c = 1%Qc.
Proof.
  intros Hc E. assert (N : c <> 0%Qc) by (apply qc_pos_neq; auto). destruct al as [|[|al]]; auto; right.
  - cbn [Qcpower] in E. assert (Q : (c * (c - 1) = 0)%Qc).
    { transitivity (c * (c * 1) - c * 1)%Qc; [ring|]. rewrite <- E. ring. }
    apply Qcmult_integral in Q as [Q|Q]; [contradiction|]. transitivity (c - 1 + 1)%Qc; [ring|rewrite Q; ring].
  - apply (pow_is1 c al Hc). cbn [Qcpower] in E |- *.
    assert (Q : (c * (c * (c * c ^ al - 1)) = 0)%Qc).
    { transitivity (c * (c * (c * c ^ al)) - c * (c * 1))%Qc; [ring|]. rewrite E. ring. }
    apply Qcmult_integral in Q as [Q|Q]; [contradiction|]. apply Qcmult_integral in Q as [Q|Q]; [contradiction|].
    transitivity (c * c ^ al - 1 + 1)%Qc; [ring|rewrite Q; ring].
Qed.

Section Scale.
  Variables (n : nat) (C W : nat -> nat -> Qc) (al : nat) (c : Qc).
  Hypothesis Hc : (0 < c)%Qc.
  Hypothesis P : positive n C.
  Hypothesis Hn : 3 < n.
  Hypothesis Wn : forall i j, i + j < n - 1 -> (0 <= W i j)%Qc.
  Hypothesis Wc : forall j, j < n - 1 -> exists i, i + j < n - 1 /\ (0 < W i j)%Qc.
  Let C' i j := (c * C i j)%Qc.

  Lemma xparam0 : xparam n C W al 0 = 0%Qc.
  Proof. unfold xparam. destruct (xdeg n C W al); auto. unfold prodf. cbn [seq map fold_right]. ring. Qed.

  Lemma xtot_scale_all : xtot n C' W al =
    (c ^ S al * (xtot n C W al - sumf 0 n (xparam n C W al)) + c ^ 2 * sumf 0 n (xparam n C W al))%Qc.
  Proof.
    assert (E0 : sumf 0 n (xparam n C W al) = sumf 1 (n - 1) (xparam n C W al)).
    { replace n with (S (n - 1)) at 1 by lia. rewrite sumf_Sl, xparam0. ring. }
    rewrite E0. unfold xtot. unfold C'. rewrite xdeg_scale by auto. destruct (xdeg n C W al) eqn:D.
    { rewrite (sumf_ext 1 (n - 1) (xparam n C W al) (fun _ => 0 * 1)%Qc).
      - rewrite sumf_mulc. ring.
      - intros i Hi. unfold xparam. rewrite D. ring. }
    set (cov := fun i => (qz 2 * projected n C (xf n C W al) i (n - 1) * sumf (S i) (n - 1 - i) (fun l => projected n C (xf n C W al) l (n - 1))
        * sumf (n - 1 - i) i (fun j => xs n C W al j / (xf n C W al j * xf n C W al j) / sumf 0 (n - 1 - j) (fun l => C l j)))%Qc).
    transitivity (sumf 1 (n - 1) (fun i => c ^ S al * (xproc n C W al i + cov i) + c ^ 2 * xparam n C W al i)%Qc).
    - apply sumf_ext. intros i Hi. unfold xmse. rewrite xproc_scale, xparam_scale by (auto; lia). rewrite !proj_scale by auto.
      rewrite (sumf_mulc_ext _ _ c (fun l => projected n (fun i j => c * C i j)%Qc (xf n (fun i j => c * C i j)%Qc W al) l (n - 1)) (fun l => projected n C (xf n C W al) l (n - 1))).
      2:{ intros l Hl. apply proj_scale; auto. }
      rewrite (sumf_mulc_ext (n - 1 - i) i (c ^ al / c) _ (fun j => xs n C W al j / (xf n C W al j * xf n C W al j) / sumf 0 (n - 1 - j) (fun l => C l j))%Qc).
      2:{ intros j Hj. rewrite xs_scale, !xf_scale by auto.
          rewrite (sumf_mulc_ext 0 (n - 1 - j) c (fun l => c * C l j)%Qc (fun l => C l j)) by reflexivity.
          assert (Sp : (0 < sumf 0 (n - 1 - j) (fun l => C l j))%Qc) by (apply sumf_pos; [lia|]; intros; apply P; lia).
          field. repeat split; apply qc_pos_neq; auto. apply xf_pos with (C := C) (W := W); auto. }
      unfold cov. cbn [Qcpower]. field. apply qc_pos_neq; auto.
    - rewrite sumf_add, !sumf_mulc.
      assert (Q : sumf 1 (n - 1) (fun i => xmse n C W al i + cov i)%Qc =
                  (sumf 1 (n - 1) (fun i => xproc n C W al i + cov i)%Qc + sumf 1 (n - 1) (xparam n C W al))%Qc).
      { rewrite <- sumf_add. apply sumf_ext. intros. unfold xmse. ring. }
      unfold cov in *. rewrite Q. ring.
  Qed.
End Scale.

Lemma Fin_injq (a b : Qc) : Fin a = Fin b -> a = b.
Proof. congruence. Qed.
Lemma sum_fin f k a : vsum (map (fun i => Fin (f i)) (seq a k)) = Fin (sumf a k f).
Proof.
  revert a. induction k as [|k IH]; intro a; cbn [seq map]; [reflexivity|].
  rewrite sumf_Sl. change (vsum (Fin (f a) :: map (fun i => Fin (f i)) (seq (S a) k))) with (vadd (Fin (f a)) (vsum (map (fun i => Fin (f i)) (seq (S a) k)))).
  rewrite IH. reflexivity.
Qed.

Lemma mack_scaling_all m m' n C c : regular m n C -> regular m' n (fun i j => c * C i j)%Qc -> (0 < c)%Qc -> positive n C -> 3 < n ->
  m_idx m' = m_idx m -> m_cols m' = m_cols m -> tail_fits (m_cols m) ->
  forall v cl ind W al tail k, clvi m = Ok cl -> weights ind n W ->
  mack_cl (mkTri m "origin" "dev" v) cl ind al tail = Ok k ->
  exists k' (e p : nat -> Qc) (T : Qc), mack_cl (mkTri m' "origin" "dev" v) cl ind al tail = Ok k' /\
    k_proc k = map (fun i => Fin (e i)) (seq 0 n) /\ k_param k = map (fun i => Fin (p i)) (seq 0 n) /\
    k_mse k = map (fun i => Fin (e i + p i)%Qc) (seq 0 n) /\ k_mse_total k = Fin T /\
    k_mse k' = map (fun i => Fin (c ^ S al * e i + c ^ 2 * p i)%Qc) (seq 0 n) /\
    k_mse_total k' = Fin (c ^ S al * (T - sumf 0 n p) + c ^ 2 * sumf 0 n p)%Qc /\
    (forall i, i < n -> (nth i (k_mse k') NaN = vmul (Fin (c ^ 2)%Qc) (nth i (k_mse k) NaN) <-> al = 1 \/ c = 1%Qc \/ e i = 0%Qc)) /\
    (k_mse_total k' = vmul (Fin (c ^ 2)%Qc) (k_mse_total k) <-> al = 1 \/ c = 1%Qc \/ T = sumf 0 n p).
Proof.
  intros R R' Hc P Hn Ei Ec Ev v cl ind W al tail k D Hw K.
  assert (P' : positive n (fun i j => c * C i j)%Qc) by (intros i j L; apply qc_mul_pos; auto).
  assert (D' : clvi m' = Ok cl).
  { apply regular_rmat in R as (E & So & Sd & Lo & Ld). apply regular_rmat in R' as (E' & So' & Sd' & Lo' & Ld').
    rewrite E, (r_clvi _ _ n C) in D by (auto; lia). injection D as <-. rewrite E', (r_clvi _ _ n (fun i j => c * C i j)%Qc) by (auto; lia). auto. }
  rewrite (mack_explicit m n C ind W al v cl tail R P Hn Ev D Hw) in K. injection K as <-.
  exists (mack_pure (m_idx m') (m_cols m') n (fun i j => c * C i j)%Qc W al tail), (xproc n C W al), (xparam n C W al), (xtot n C W al).
  split; [apply (mack_explicit m' n _ ind W al v cl tail R' P' Hn); auto; rewrite Ec; auto|].
  destruct Hw as (_ & Wn & Wc). unfold mack_pure. cbn [k_proc k_param k_mse k_mse_total].
  split; [reflexivity|]. split; [reflexivity|]. split; [reflexivity|]. split; [reflexivity|].
  assert (M' : forall i, i < n -> xmse n (fun i j => c * C i j)%Qc W al i = (c ^ S al * xproc n C W al i + c ^ 2 * xparam n C W al i)%Qc).
  { intros i Hi. unfold xmse. rewrite xproc_scale, xparam_scale by auto. reflexivity. }
  assert (X : forall x y : Qc, (c ^ S al * x + c ^ 2 * y = c ^ 2 * (x + y))%Qc <-> al = 1 \/ c = 1%Qc \/ x = 0%Qc).
  { intros x y. split.
    - intro E. assert (Q : ((c ^ S al - c ^ 2) * x = 0)%Qc).
      { transitivity (c ^ S al * x + c ^ 2 * y - c ^ 2 * (x + y))%Qc; [ring|]. rewrite E. ring. }
      apply Qcmult_integral in Q as [Q|Q]; auto.
      destruct (pow_is2 c al Hc) as [E1|E1]; auto. transitivity (c ^ S al - c ^ 2 + c ^ 2)%Qc; [ring|rewrite Q; ring].
    - intros [-> | [-> | ->]]; [ring| |ring].
      assert (O : forall j, (1 ^ j = 1)%Qc) by (induction j as [|j IH]; cbn [Qcpower]; [reflexivity|rewrite IH; ring]).
      rewrite !O. ring. }
  split; [apply map_seq_ext; intros i Hi; rewrite M' by lia; auto|].
  assert (T' := xtot_scale_all n C W al c Hc P Hn Wn Wc). split; [f_equal; exact T'|]. split.
  - intros i Hi. rewrite !nth_map_seq by auto. cbn [vmul]. rewrite M' by auto. unfold xmse.
    split; intro E; [apply X with (y := xparam n C W al i)|f_equal; apply X; auto]. apply Fin_injq in E. exact E.
  - cbn [vmul]. rewrite T'. set (p := sumf 0 n (xparam n C W al)). generalize (xtot n C W al). intro T.
    assert (Y : (c ^ 2 * T = c ^ 2 * ((T - p) + p))%Qc) by (f_equal; ring). rewrite Y. split.
    + intro E. apply Fin_injq in E. apply X in E as [E|[E|E]]; auto. right; right. transitivity (T - p + p)%Qc; [ring|rewrite E; ring].
    + intros H. f_equal. apply X. destruct H as [H|[H|H]]; auto. right; right. rewrite H. ring.
Qed.
