(** Proofs of C52-C54: changes of unit, of labels, of the latest origin. *)

From Coq Require Import String QArith Qcanon ZArith List Bool Lia Permutation Sorting.Sorted.
From Verif Require Import Val Frame Triangle A2A Base Mack ListLib QcLib Spec RegFacts AvgFacts AvgClaims2 BaseClaims
  MackFacts MackClaims MackClaims2 MackClaims3 MackExplicit RelFacts.
Import ListNotations.
Open Scope list_scope.
Open Scope nat_scope.

Lemma qpow_mul (a b : Qc) k : ((a * b) ^ k = a ^ k * b ^ k)%Qc.
Proof. induction k as [|k IH]; cbn [Qcpower]; [ring|rewrite IH; ring]. Qed.
Lemma qmin_mul c a b : (0 < c)%Qc -> qmin (c * a) (c * b) = (c * qmin a b)%Qc.
Proof.
  intro H. unfold qmin. destruct (qcleb a b) eqn:E, (qcleb (c * a) (c * b)) eqn:E'; auto; exfalso.
  - apply qcleb_le in E. assert (N : ~ (c * a <= c * b)%Qc) by (intro Q; apply qcleb_le in Q; congruence).
    apply N. rewrite (Qcmult_comm c a), (Qcmult_comm c b). apply Qcmult_le_compat_r; auto. apply Qclt_le_weak; auto.
  - apply qcleb_le in E'. assert (N : ~ (a <= b)%Qc) by (intro Q; apply qcleb_le in Q; congruence).
    apply N. rewrite (Qcmult_comm c a), (Qcmult_comm c b) in E'. eapply Qcmult_lt_0_le_reg_r; eauto.
Qed.
Lemma qceqb_mul0 c a : c <> 0%Qc -> qceqb (c * a) 0 = qceqb a 0.
Proof.
  intro H. destruct (qceqb a 0) eqn:E.
  - apply qceqb_eq in E. subst. rewrite Qcmult_0_r. apply qceqb_refl.
  - destruct (qceqb (c * a) 0) eqn:E'; auto. apply qceqb_eq in E'. apply Qcmult_integral in E' as [Q|Q]; [contradiction|].
    subst. rewrite qceqb_refl in E. discriminate.
Qed.
Lemma sumf_mulc_ext a k (c : Qc) (f g : nat -> Qc) : (forall i, a <= i < a + k -> f i = (c * g i)%Qc) -> sumf a k f = (c * sumf a k g)%Qc.
Proof. intro H. rewrite <- sumf_mulc. apply sumf_ext. exact H. Qed.

Section Scale.
  Variables (n : nat) (C W : nat -> nat -> Qc) (al : nat) (c : Qc).
  Hypothesis Hc : (0 < c)%Qc.
  Hypothesis P : positive n C.
  Hypothesis Hn : 3 < n.
  Hypothesis Wn : forall i j, i + j < n - 1 -> (0 <= W i j)%Qc.
  Hypothesis Wc : forall j, j < n - 1 -> exists i, i + j < n - 1 /\ (0 < W i j)%Qc.
  Let C' i j := (c * C i j)%Qc.

  Lemma c_neq : c <> 0%Qc. Proof. apply qc_pos_neq; auto. Qed.
  Lemma ck_pos k : (0 < c ^ k)%Qc. Proof. apply qpow_pos; auto. Qed.
  Lemma link_scale i j : i + j < n -> (C' i (S j) / C' i j = C i (S j) / C i j)%Qc.
  Proof. intro H. unfold C'. field. split; apply qc_pos_neq; auto. Qed.
  Lemma den_scale j : sumf 0 (n - 1 - j) (fun i => W i j * C' i j ^ al)%Qc = (c ^ al * sumf 0 (n - 1 - j) (fun i => W i j * C i j ^ al))%Qc.
  Proof. apply sumf_mulc_ext. intros i Hi. unfold C'. rewrite qpow_mul. ring. Qed.
  Lemma xf_scale j : xf n C' W al j = xf n C W al j.
  Proof.
    unfold xf. destruct (Nat.ltb_spec (S j) n) as [L|L]; auto. rewrite den_scale.
    rewrite (sumf_mulc_ext _ _ (c ^ al) _ (fun i => W i j * C i j ^ al * (C i (S j) / C i j))%Qc).
    2:{ intros i Hi. rewrite link_scale by lia. unfold C'. rewrite qpow_mul. ring. }
    assert (D := xden_pos n C W al j P Wn (Wc j ltac:(lia))). field. split; apply qc_pos_neq; auto using ck_pos.
  Qed.
  Lemma xs2_scale j : j < n -> xs2 n C' W al j = (c ^ al * xs2 n C W al j)%Qc.
  Proof.
    intro Hj. unfold xs2, sigma2.
    rewrite (sumf_mulc_ext _ _ (c ^ al) _ (fun i => W i j * C i j ^ al * ((C i (S j) / C i j - xf n C W al j) * (C i (S j) / C i j - xf n C W al j)))%Qc).
    2:{ intros i Hi. rewrite link_scale, xf_scale by lia. unfold C'. rewrite qpow_mul. ring. }
    unfold Qcdiv. ring.
  Qed.
  Lemma xdeg_scale : xdeg n C' W al = xdeg n C W al.
  Proof. unfold xdeg. rewrite !xs2_scale by lia. rewrite !qceqb_mul0 by (apply qc_pos_neq, ck_pos). auto. Qed.
  Lemma xlast_scale : xlast n C' W al = (c ^ al * xlast n C W al)%Qc.
  Proof.
    unfold xlast. rewrite !xs2_scale by lia. rewrite qceqb_mul0 by (apply qc_pos_neq, ck_pos).
    destruct (qceqb (xs2 n C W al (n - 4)) 0) eqn:E; [symmetry; apply Qcmult_0_r|].
    rewrite <- !qmin_mul by apply ck_pos. f_equal.
    field. split; [|apply qc_pos_neq, ck_pos]. intro Q. rewrite Q, qceqb_refl in E. discriminate.
  Qed.
  Lemma xs_scale j : xs n C' W al j = (c ^ al * xs n C W al j)%Qc.
  Proof. unfold xs. destruct (Nat.ltb_spec j (n - 2)); [apply xs2_scale; lia|apply xlast_scale]. Qed.
  Lemma xu_scale j : j < n - 1 -> xu n C' W al j = xu n C W al j.
  Proof.
    intro Hj. unfold xu. rewrite xs_scale, den_scale. assert (D := xden_pos n C W al j P Wn (Wc j Hj)).
    field. split; apply qc_pos_neq; auto using ck_pos.
  Qed.
  Lemma xcdf_scale i : xcdf n C' W al i = xcdf n C W al i.
  Proof. unfold xcdf. apply prodf_ext. intros. apply xf_scale. Qed.
  Lemma proj_scale i j : projected n C' (xf n C' W al) i j = (c * projected n C (xf n C W al) i j)%Qc.
  Proof.
    unfold projected. rewrite (prodf_ext _ _ (xf n C' W al) (xf n C W al)) by (intros; apply xf_scale). unfold C'. ring.
  Qed.
  Lemma xf_pos j : (0 < xf n C W al j)%Qc.
  Proof.
    unfold xf. destruct (Nat.ltb_spec (S j) n) as [L|L]; [|reflexivity].
    apply qc_div_pos; [|apply xden_pos; auto; apply Wc; lia].
    destruct (Wc j ltac:(lia)) as (i & Hi & Wp).
    replace (n - 1 - j) with (i + S (n - 2 - j - i)) by lia. rewrite sumf_split, sumf_Sl. cbn [plus].
    assert (A : forall i, i + j < n - 1 -> (0 <= W i j * C i j ^ al * (C i (S j) / C i j))%Qc).
    { intros k Hk. apply qc_mul_nonneg; [apply qc_mul_nonneg; auto; apply Qclt_le_weak, qpow_pos, P; lia|].
      apply Qclt_le_weak, qc_div_pos; apply P; lia. }
    assert (A1 : (0 <= sumf 0 i (fun i => W i j * C i j ^ al * (C i (S j) / C i j)))%Qc) by (apply sumf_nonneg; intros; apply A; lia).
    assert (A2 : (0 <= sumf (S i) (n - 2 - j - i) (fun i => W i j * C i j ^ al * (C i (S j) / C i j)))%Qc) by (apply sumf_nonneg; intros; apply A; lia).
    assert (A3 : (0 < W i j * C i j ^ al * (C i (S j) / C i j))%Qc).
    { apply qc_mul_pos; [apply qc_mul_pos; auto; apply qpow_pos, P; lia|]. apply qc_div_pos; apply P; lia. }
    qlra.
  Qed.
  Lemma xproj_pos i j : i < n -> (0 < projected n C (xf n C W al) i j)%Qc.
  Proof. intro Hi. apply qc_mul_pos; [apply P; lia|]. apply prodf_pos. intros. apply xf_pos. Qed.
  Lemma xproc_scale i : i < n -> xproc n C' W al i = (c ^ S al * xproc n C W al i)%Qc.
  Proof.
    intro Hi. unfold xproc. rewrite xdeg_scale. destruct (xdeg n C W al); [symmetry; apply Qcmult_0_r|].
    rewrite !proj_scale.
    rewrite (sumf_mulc_ext _ _ (c ^ al / c) _ (fun j => xs n C W al j / (xf n C W al j * xf n C W al j) / projected n C (xf n C W al) i j)%Qc).
    - cbn [Qcpower]. field. apply c_neq.
    - intros j Hj. rewrite xs_scale, !xf_scale, proj_scale. field.
      repeat split; apply qc_pos_neq; auto using xf_pos, xproj_pos.
  Qed.
  Lemma xparam_scale i : i < n -> xparam n C' W al i = (c ^ 2 * xparam n C W al i)%Qc.
  Proof.
    intro Hi. unfold xparam. rewrite xdeg_scale. destruct (xdeg n C W al); [symmetry; apply Qcmult_0_r|].
    rewrite (prodf_ext _ _ (fun j => xf n C' W al j * xf n C' W al j + xu n C' W al j)%Qc (fun j => xf n C W al j * xf n C W al j + xu n C W al j)%Qc).
    2:{ intros j Hj. rewrite xf_scale, xu_scale by lia. auto. }
    rewrite (prodf_ext _ _ (fun j => xf n C' W al j * xf n C' W al j)%Qc (fun j => xf n C W al j * xf n C W al j)%Qc).
    2:{ intros j Hj. rewrite xf_scale. auto. }
    unfold xlat, C'. cbn [Qcpower]. ring.
  Qed.
  Lemma xtot_scale : al = 1 -> xtot n C' W al = (c ^ 2 * xtot n C W al)%Qc.
  Proof.
    intro E. unfold xtot. rewrite xdeg_scale. destruct (xdeg n C W al); [symmetry; apply Qcmult_0_r|].
    apply sumf_mulc_ext. intros i Hi. unfold xmse. rewrite xproc_scale, xparam_scale by lia. rewrite !proj_scale.
    rewrite (sumf_mulc_ext _ _ c (fun l => projected n C' (xf n C' W al) l (n - 1)) (fun l => projected n C (xf n C W al) l (n - 1))).
    2:{ intros l Hl. apply proj_scale. }
    rewrite (sumf_mulc_ext (n - 1 - i) i (c ^ al / c) _ (fun j => xs n C W al j / (xf n C W al j * xf n C W al j) / sumf 0 (n - 1 - j) (fun l => C l j))%Qc).
    2:{ intros j Hj. rewrite xs_scale, !xf_scale.
        rewrite (sumf_mulc_ext 0 (n - 1 - j) c (fun l => C' l j) (fun l => C l j)) by reflexivity.
        assert (Sp : (0 < sumf 0 (n - 1 - j) (fun l => C l j))%Qc) by (apply sumf_pos; [lia|]; intros; apply P; lia).
        field. repeat split; apply qc_pos_neq; auto using xf_pos. }
    rewrite E. cbn [Qcpower]. field. apply c_neq.
  Qed.
End Scale.

Definition relabel (k : Qc) (row : srow) : srow :=
  mkRow (s_origin row) (s_maturity row) (s_cldf row) (s_emergence row)
    (vmul (Fin k) (s_latest row)) (vmul (Fin k) (s_ultimate row)) (vmul (Fin k) (s_reserve row)).

Lemma mack_scaling m m' n C c : regular m n C -> regular m' n (fun i j => c * C i j)%Qc -> (0 < c)%Qc -> positive n C -> 3 < n ->
  m_idx m' = m_idx m -> m_cols m' = m_cols m -> tail_fits (m_cols m) ->
  forall v cl ind W al tail k, clvi m = Ok cl -> weights ind n W ->
  mack_cl (mkTri m "origin" "dev" v) cl ind al tail = Ok k ->
  exists k', mack_cl (mkTri m' "origin" "dev" v) cl ind al tail = Ok k' /\
    c_ldfs (k_cl k') = c_ldfs (k_cl k) /\
    c_rows (k_cl k') = map (fun row => mkRow (s_origin row) (s_maturity row) (s_cldf row) (s_emergence row)
       (vmul (Fin c) (s_latest row)) (vmul (Fin c) (s_ultimate row)) (vmul (Fin c) (s_reserve row))) (c_rows (k_cl k)) /\
    k_devpvar k' = map (fun p => (fst p, vmul (Fin (c ^ al)%Qc) (snd p))) (k_devpvar k) /\
    k_ldfvar k' = k_ldfvar k /\
    k_param k' = map (vmul (Fin (c ^ 2)%Qc)) (k_param k) /\
    k_proc k' = map (vmul (Fin (c ^ S al)%Qc)) (k_proc k) /\
    (al = 1 -> k_mse k' = map (vmul (Fin (c ^ 2)%Qc)) (k_mse k) /\ k_mse_total k' = vmul (Fin (c ^ 2)%Qc) (k_mse_total k)).
Proof.
  intros R R' Hc P Hn Ei Ec Ev v cl ind W al tail k D Hw K.
  assert (P' : positive n (fun i j => c * C i j)%Qc) by (intros i j L; apply qc_mul_pos; auto).
  assert (D' : clvi m' = Ok cl).
  { apply regular_rmat in R as (E & So & Sd & Lo & Ld). apply regular_rmat in R' as (E' & So' & Sd' & Lo' & Ld').
    rewrite E, (r_clvi _ _ n C) in D by (auto; lia). injection D as <-. rewrite E', (r_clvi _ _ n (fun i j => c * C i j)%Qc) by (auto; lia). auto. }
  rewrite (mack_explicit m n C ind W al v cl tail R P Hn Ev D Hw) in K. injection K as <-.
  eexists. split; [apply (mack_explicit m' n _ ind W al v cl tail R' P' Hn); auto; rewrite Ec; auto|].
  destruct Hw as (_ & Wn & Wc). rewrite Ei, Ec. unfold mack_pure.
  cbn [k_cl c_ldfs c_rows k_devpvar k_ldfvar k_param k_proc k_mse k_mse_total]. rewrite !map_map.
  cbn [fst snd]. split; [|split; [|split; [|split; [|split; [|split]]]]].
  - apply map_seq_ext. intros j Hj. rewrite xf_scale by auto. auto.
  - apply map_seq_ext. intros i Hi. unfold xrow. cbn [s_origin s_maturity s_cldf s_emergence s_latest s_ultimate s_reserve vmul].
    rewrite xcdf_scale by auto. unfold xlat. f_equal; f_equal; ring.
  - apply map_seq_ext. intros j Hj. f_equal. unfold xmissing. rewrite xdeg_scale by auto. destruct (_ && _); auto.
    cbn [vmul]. f_equal. apply xs_scale; auto.
  - apply map_seq_ext. intros j Hj. f_equal. unfold xmissing. rewrite xdeg_scale by auto. destruct (_ && _); auto.
    f_equal. apply xu_scale; auto; lia.
  - apply map_seq_ext. intros i Hi. cbn [vmul]. f_equal. apply xparam_scale; auto; lia.
  - apply map_seq_ext. intros i Hi. cbn [vmul]. f_equal. apply xproc_scale; auto; lia.
  - intros ->. split.
    + apply map_seq_ext. intros i Hi. cbn [vmul]. f_equal. unfold xmse. rewrite xparam_scale, xproc_scale by (auto; lia). ring.
    + cbn [vmul]. f_equal. apply xtot_scale; auto.
Qed.
