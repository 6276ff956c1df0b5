(** Proofs of C80: the summary table of Mack's chain ladder and the bounds on the total
    standard error. *)

From Coq Require Import String QArith Qcanon Qreals Reals Lra ZArith List Bool Lia Permutation Sorting.Sorted.
From Verif Require Import Val Frame Triangle A2A Base Mack Dist ListLib QcLib Spec RegFacts BaseClaims MackFacts MackClaims MackClaims2
  MackClaims3 MackExplicit RelClaims DistClaims InferClaims BootClaims2 SpecBootSum BootSumClaims MackSum.
Import ListNotations.
Open Scope list_scope.
Open Scope nat_scope.

(** ** A sum of correlated errors *)

Lemma prod_over k l (f u : nat -> Qc) : (forall j, k <= j < k + l -> (0 < f j)%Qc /\ (0 <= u j)%Qc) ->
  (prodf k l (fun j => f j * f j) * sumf k l (fun j => u j / (f j * f j))
   <= prodf k l (fun j => f j * f j + u j) - prodf k l (fun j => f j * f j))%Qc /\
  (0 < prodf k l (fun j => f j * f j))%Qc /\ (0 <= sumf k l (fun j => u j / (f j * f j)))%Qc.
Proof.
  revert k. induction l as [|l IH]; intros k H.
  - rewrite !prodf_0, sumf_0. split; [|split]; [qlra|reflexivity|apply Qcle_refl].
  - rewrite !prodf_Sl, sumf_Sl. destruct (IH (S k)) as (A & B & D). { intros; apply H; lia. }
    destruct (H k ltac:(lia)) as (F & U). assert (FF : (0 < f k * f k)%Qc) by (apply qc_mul_pos; auto).
    assert (E : (f k * f k * (u k / (f k * f k)) = u k)%Qc) by (field; apply qc_pos_neq; auto).
    assert (X : (0 <= u k / (f k * f k))%Qc) by (apply qc_div_nonneg; auto).
    set (P := prodf (S k) l (fun j => f j * f j)%Qc) in *. set (Q := prodf (S k) l (fun j => f j * f j + u j)%Qc) in *.
    set (T := sumf (S k) l (fun j => u j / (f j * f j))%Qc) in *. set (x := (u k / (f k * f k))%Qc) in *.
    split; [|split].
    + apply Qcle_trans with (f k * f k * (Q - P) + u k * Q)%Qc.
      * replace (f k * f k * P * (x + T))%Qc with (f k * f k * (P * T) + (f k * f k * x) * P)%Qc by ring. rewrite E.
        assert (A1 : (f k * f k * (P * T) <= f k * f k * (Q - P))%Qc).
        { rewrite !(Qcmult_comm (f k * f k)). apply Qcmult_le_compat_r; [auto|apply Qclt_le_weak; auto]. }
        assert (PQ : (P <= Q)%Qc).
        { assert (0 <= P * T)%Qc by (apply qc_mul_nonneg; auto; apply Qclt_le_weak; auto). qlra. }
        assert (A2 : (u k * P <= u k * Q)%Qc) by (rewrite !(Qcmult_comm (u k)); apply Qcmult_le_compat_r; auto).
        apply Qcplus_le_compat; auto.
      * replace ((f k * f k + u k) * Q - f k * f k * P)%Qc with (f k * f k * (Q - P) + u k * Q)%Qc by ring. apply Qcle_refl.
    + apply qc_mul_pos; auto.
    + qlra.
Qed.

(** Errors e, pairwise terms c with c^2 <= e e: a sum over all pairs is at most the
    square of the sum of the roots. *)
Definition rsum (a k : nat) (g : nat -> R) : R := fold_right Rplus 0%R (map g (seq a k)).
Lemma rsum_nonneg a k g : (forall i, (0 <= g i)%R) -> (0 <= rsum a k g)%R.
Proof.
  intro H. unfold rsum. revert a. induction k as [|k IH]; intro a; cbn [seq map fold_right]; [lra|].
  assert (A := H a). assert (B := IH (S a)). lra.
Qed.
Lemma pairs_le (e : nat -> Qc) (c : nat -> nat -> Qc) k a :
  (forall i, a <= i < a + k -> (0 <= e i)%Qc) ->
  (forall i l, a <= i -> i < l -> l < a + k -> (0 <= c i l)%Qc /\ (c i l * c i l <= e i * e l)%Qc) ->
  (Q2R (sumf a k (fun i => e i + qz 2 * sumf (S i) (a + k - S i) (fun l => c i l))%Qc)
   <= rsum a k (fun i => sqrt (Q2R (e i))) * rsum a k (fun i => sqrt (Q2R (e i))))%R.
Proof.
  revert a. induction k as [|k IH]; intros a He Hc.
  - rewrite sumf_0, Q2R_zero. unfold rsum. simpl. lra.
  - rewrite sumf_Sl. replace (a + S k - S a) with k by lia.
    rewrite (sumf_ext (S a) k (fun i => e i + qz 2 * sumf (S i) (a + S k - S i) (fun l => c i l))%Qc
      (fun i => e i + qz 2 * sumf (S i) (S a + k - S i) (fun l => c i l))%Qc).
    2:{ intros i Hi. replace (S a + k - S i) with (a + S k - S i) by lia. reflexivity. }
    assert (I := IH (S a) ltac:(intros; apply He; lia) ltac:(intros; apply Hc; lia)).
    unfold rsum at 1 2. cbn [seq map fold_right].
    fold (rsum (S a) k (fun i => sqrt (Q2R (e i)))).
    set (S0 := rsum (S a) k (fun i => sqrt (Q2R (e i)))) in *.
    rewrite !Q2R_add, Q2R_mul, Q2R_sumf.
    assert (Z2 : Q2R (qz 2) = 2%R) by (unfold Q2R; simpl; lra). rewrite Z2.
    assert (Ea := Q2R_le _ _ (He a ltac:(lia))). rewrite Q2R_zero in Ea. assert (Sa := sqrt_sqrt _ Ea). assert (Pa := sqrt_pos (Q2R (e a))).
    assert (X : (fold_right Rplus 0 (map (fun i => Q2R (c a i)) (seq (S a) k)) <= sqrt (Q2R (e a)) * S0)%R).
    { unfold S0, rsum.
      assert (G : forall i, In i (seq (S a) k) -> (Q2R (c a i) <= sqrt (Q2R (e a)) * sqrt (Q2R (e i)))%R).
      { intros i Hi. apply in_seq in Hi. destruct (Hc a i) as (C0 & C1); [lia|lia|lia|].
        apply Q2R_le in C0, C1. rewrite Q2R_zero in C0. rewrite !Q2R_mul in C1.
        assert (Ei := Q2R_le _ _ (He i ltac:(lia))). rewrite Q2R_zero in Ei. assert (Si := sqrt_sqrt _ Ei). assert (Pi := sqrt_pos (Q2R (e i))).
        rewrite <- (sqrt_square (Q2R (c a i))) by auto. rewrite <- sqrt_mult by auto. apply sqrt_le_1; [nra|nra|auto]. }
      generalize (seq (S a) k) G. intro L. induction L as [|y L IL]; intro GL; cbn [map fold_right]; [lra|].
      assert (G1 := GL y (or_introl eq_refl)). assert (G2 := IL (fun i Hi => GL i (or_intror Hi))). lra. }
    nra.
Qed.

Lemma rsum_le a k f g : (forall i, a <= i < a + k -> (f i <= g i)%R) -> (rsum a k f <= rsum a k g)%R.
Proof.
  unfold rsum. revert a. induction k as [|k IH]; intros a H; cbn [seq map fold_right]; [lra|].
  assert (A := H a ltac:(lia)). assert (B := IH (S a) ltac:(intros; apply H; lia)). lra.
Qed.
Lemma rsum_mulc a k c g : rsum a k (fun i => c * g i)%R = (c * rsum a k g)%R.
Proof. unfold rsum. revert a. induction k as [|k IH]; intro a; cbn [seq map fold_right]; [lra|]. rewrite IH. lra. Qed.

Section Total.
  Variables (m : lmat) (n : nat) (C : nat -> nat -> Qc).
  Hypothesis HR : regular m n C.
  Hypothesis HP : positive n C.
  Hypothesis Hn : 3 < n.
  Hypothesis Ev : tail_fits (m_cols m).
  Variable cl : list nat.
  Hypothesis D : clvi m = Ok cl.
  Variables (ind : list (list val)) (W : nat -> nat -> Qc).
  Hypothesis HW : weights ind n W.
  Variables (al : nat) (v : string) (tail : val) (k : mack_result).
  Hypothesis K : mack_cl (mkTri m "origin" "dev" v) cl ind al tail = Ok k.

  Lemma k_pure : k = mack_pure (m_idx m) (m_cols m) n C W al tail.
  Proof. assert (E := mack_explicit m n C ind W al v cl tail HR HP Hn Ev D HW). rewrite K in E. injection E as E. exact E. Qed.
  Lemma Wn : forall i j, i + j < n - 1 -> (0 <= W i j)%Qc. Proof. apply HW. Qed.
  Lemma Wc : forall j, j < n - 1 -> exists i, i + j < n - 1 /\ (0 < W i j)%Qc. Proof. apply HW. Qed.
  Lemma xs2_nonneg j : j < n - 2 -> (0 <= xs2 n C W al j)%Qc.
  Proof.
    intro Hj.
    assert (L : c_ldfs (k_cl k) = map (fun j => (nth j (m_cols m) 0%Z, Fin (xf n C W al j))) (seq 0 n)) by (rewrite k_pure; reflexivity).
    destruct (c32_devpvar m n C HR HP Hn Ev cl D ind W HW al v tail k K (xf n C W al) L) as (x & _ & X & _). apply X; auto.
  Qed.
  Lemma qmin_nonneg a b : (0 <= a)%Qc -> (0 <= b)%Qc -> (0 <= qmin a b)%Qc.
  Proof. intros. unfold qmin. destruct (qcleb a b); auto. Qed.
  Lemma xs_nonneg j : (0 <= xs n C W al j)%Qc.
  Proof.
    unfold xs. destruct (Nat.ltb_spec j (n - 2)); [apply xs2_nonneg; auto|].
    unfold xlast. destruct (qceqb (xs2 n C W al (n - 4)) 0) eqn:E; [apply Qcle_refl|].
    assert (A := xs2_nonneg (n - 4) ltac:(lia)). assert (B := xs2_nonneg (n - 3) ltac:(lia)).
    apply qmin_nonneg; [|apply qmin_nonneg; auto]. apply qc_div_nonneg; [apply qc_mul_nonneg; auto|].
    apply Qcle_lt_or_eq in A as [A|A]; auto. rewrite <- A, qceqb_refl in E. discriminate.
  Qed.
  Lemma f_pos j : (0 < xf n C W al j)%Qc.
  Proof. exact (xf_pos n C W al HP Hn Wn Wc j). Qed.
  Lemma pr_pos i j : i < n -> (0 < projected n C (xf n C W al) i j)%Qc.
  Proof. exact (xproj_pos n C W al HP Hn Wn Wc i j). Qed.

  Let f := xf n C W al.
  Let s := xs n C W al.
  Let U i := projected n C f i (n - 1).
  Let r j := (s j / (f j * f j) / sumf 0 (n - 1 - j) (fun l => C l j))%Qc.
  Let Rr i := sumf (n - 1 - i) i r.

  Lemma r_nonneg j : j < n - 1 -> (0 <= r j)%Qc.
  Proof.
    intro Hj. apply qc_div_nonneg; [apply qc_div_nonneg; [apply xs_nonneg|apply qc_mul_pos; apply f_pos]|].
    apply sumf_pos; [lia|]. intros l Hl. apply HP. lia.
  Qed.
  Lemma Rr_nonneg i : i < n -> (0 <= Rr i)%Qc.
  Proof. intro Hi. apply sumf_nonneg. intros j Hj. apply r_nonneg. lia. Qed.
  Lemma Rr_mono i l : i < l -> l < n -> (Rr i <= Rr l)%Qc.
  Proof.
    intros Hi Hl. unfold Rr. replace l with ((l - i) + i) at 2 by lia. rewrite sumf_split.
    replace (n - 1 - l + (l - i)) with (n - 1 - i) by lia.
    assert (A : (0 <= sumf (n - 1 - l) (l - i) r)%Qc) by (apply sumf_nonneg; intros; apply r_nonneg; lia). qlra.
  Qed.
  Lemma proc_nonneg i : i < n -> (0 <= xproc n C W al i)%Qc.
  Proof.
    intro Hi. unfold xproc. destruct (xdeg n C W al); [apply Qcle_refl|].
    apply qc_mul_nonneg; [apply qc_mul_nonneg; apply Qclt_le_weak, pr_pos; auto|].
    apply sumf_nonneg. intros j Hj. apply qc_div_nonneg; [|apply pr_pos; auto].
    apply qc_div_nonneg; [apply xs_nonneg|apply qc_mul_pos; apply f_pos].
  Qed.

  Hypothesis A1 : al = 1.
  Hypothesis W1 : forall i j, i + j < n - 1 -> (W i j <= 1)%Qc.

  Lemma den_le j : j < n - 1 -> (sumf 0 (n - 1 - j) (fun i => W i j * C i j ^ al) <= sumf 0 (n - 1 - j) (fun l => C l j))%Qc.
  Proof.
    intro Hj. apply sumf_le. intros i Hi. rewrite A1.
    replace (W i j * C i j ^ 1)%Qc with (W i j * C i j)%Qc by (simpl; ring).
    rewrite <- (Qcmult_1_l (C i j)) at 2. apply Qcmult_le_compat_r; [apply W1; lia|apply Qclt_le_weak, HP; lia].
  Qed.
  Lemma u_ge j : j < n - 1 -> (r j <= xu n C W al j / (f j * f j))%Qc.
  Proof.
    intro Hj. unfold r, xu. fold s. assert (Sn : (0 <= s j)%Qc) by apply xs_nonneg. assert (F : (0 < f j * f j)%Qc) by (apply qc_mul_pos; apply f_pos).
    assert (Dp := xden_pos n C W al j HP Wn (Wc j Hj)). assert (DL := den_le j Hj).
    set (d := sumf 0 (n - 1 - j) (fun i => W i j * C i j ^ al)%Qc) in *. set (t := sumf 0 (n - 1 - j) (fun l => C l j)) in *.
    assert (Tp : (0 < t)%Qc) by (eapply Qclt_le_trans; eauto).
    assert (I : (/ t <= / d)%Qc).
    { assert (X : (1 / t <= 1 / d)%Qc); [|unfold Qcdiv in X; rewrite !Qcmult_1_l in X; exact X].
      apply qc_div_le; auto. replace (1 / d * t)%Qc with (t / d)%Qc by (field; apply qc_pos_neq; auto).
      apply qc_le_div; auto. rewrite Qcmult_1_l. auto. }
    replace (s j / (f j * f j) / t)%Qc with (/ t * (s j / (f j * f j)))%Qc by (unfold Qcdiv; ring).
    replace (s j / d / (f j * f j))%Qc with (/ d * (s j / (f j * f j)))%Qc by (unfold Qcdiv; ring).
    apply Qcmult_le_compat_r; auto. apply qc_div_nonneg; auto.
  Qed.
  Lemma param_ge i : i < n -> xdeg n C W al = false -> (U i * U i * Rr i <= xparam n C W al i)%Qc.
  Proof.
    intros Hi Dg. unfold xparam. rewrite Dg. fold f.
    destruct (prod_over (n - 1 - i) i f (xu n C W al)) as (A & B & _).
    { intros j Hj. split; [apply f_pos|]. unfold xu. apply qc_div_nonneg; [apply xs_nonneg|]. apply xden_pos; auto; [exact Wn|apply Wc; lia]. }
    assert (E : (U i * U i = xlat n C i * xlat n C i * prodf (n - 1 - i) i (fun j => f j * f j))%Qc).
    { unfold U, projected, xlat. replace (n - 1 - (n - 1 - i)) with i by lia.
      assert (G : forall a l, prodf a l (fun j => f j * f j)%Qc = (prodf a l f * prodf a l f)%Qc).
      { intros a l. revert a. induction l as [|l IH]; intro a; [rewrite !prodf_0; ring|rewrite !prodf_Sl, IH; ring]. }
      rewrite G. ring. }
    assert (L0 : (0 <= xlat n C i * xlat n C i)%Qc) by apply qc_sq_nonneg.
    rewrite E. set (P := prodf (n - 1 - i) i (fun j => f j * f j)%Qc) in *.
    apply Qcle_trans with (xlat n C i * xlat n C i * (P * sumf (n - 1 - i) i (fun j => xu n C W al j / (f j * f j))))%Qc.
    - replace (xlat n C i * xlat n C i * P * Rr i)%Qc with (Rr i * (xlat n C i * xlat n C i * P))%Qc by ring.
      replace (xlat n C i * xlat n C i * (P * sumf (n - 1 - i) i (fun j => xu n C W al j / (f j * f j))))%Qc
        with (sumf (n - 1 - i) i (fun j => xu n C W al j / (f j * f j)) * (xlat n C i * xlat n C i * P))%Qc by ring.
      apply Qcmult_le_compat_r; [|apply qc_mul_nonneg; auto; apply Qclt_le_weak; auto].
      apply sumf_le. intros j Hj. apply u_ge. lia.
    - rewrite !(Qcmult_comm (xlat n C i * xlat n C i)). apply Qcmult_le_compat_r; auto.
  Qed.
  Lemma pair_le i l : i < l -> l < n -> xdeg n C W al = false ->
    (0 <= U i * U l * Rr i)%Qc /\ (U i * U l * Rr i * (U i * U l * Rr i) <= xmse n C W al i * xmse n C W al l)%Qc.
  Proof.
    intros Hi Hl Dg.
    assert (Ui : (0 < U i)%Qc) by (apply pr_pos; lia). assert (Ul : (0 < U l)%Qc) by (apply pr_pos; lia).
    assert (R0 := Rr_nonneg i ltac:(lia)). assert (R1 := Rr_mono i l Hi Hl).
    split; [apply qc_mul_nonneg; auto; apply Qclt_le_weak, qc_mul_pos; auto|].
    assert (G : forall i, i < n -> (U i * U i * Rr i <= xmse n C W al i)%Qc).
    { intros j Hj. unfold xmse. assert (X := proc_nonneg j Hj). assert (Y := param_ge j Hj Dg).
      set (z := (U j * U j * Rr j)%Qc) in *. clearbody z.
      generalize dependent (xproc n C W al j). generalize dependent (xparam n C W al j). intros p Hp q Hq. clear - Hp Hq. qlra. }
    assert (Gi := G i ltac:(lia)). assert (Gl := G l Hl).
    apply Qcle_trans with (U i * U i * Rr i * (U l * U l * Rr l))%Qc.
    - replace (U i * U l * Rr i * (U i * U l * Rr i))%Qc with (Rr i * (U i * U i * Rr i * (U l * U l)))%Qc by ring.
      replace (U i * U i * Rr i * (U l * U l * Rr l))%Qc with (Rr l * (U i * U i * Rr i * (U l * U l)))%Qc by ring.
      apply Qcmult_le_compat_r; auto. apply qc_mul_nonneg; [apply qc_mul_nonneg; auto|]; apply Qclt_le_weak, qc_mul_pos; auto.
    - assert (X : (0 <= U i * U i * Rr i)%Qc) by (apply qc_mul_nonneg; auto; apply Qclt_le_weak, qc_mul_pos; auto).
      assert (Y : (0 <= U l * U l * Rr l)%Qc) by (apply qc_mul_nonneg; [apply Qclt_le_weak, qc_mul_pos; auto|apply Rr_nonneg; auto]).
      set (a := (U i * U i * Rr i)%Qc) in *. set (b := (U l * U l * Rr l)%Qc) in *. clearbody a b.
      apply Qcle_trans with (xmse n C W al i * b)%Qc; [apply Qcmult_le_compat_r; auto|].
      rewrite (Qcmult_comm _ b), (Qcmult_comm _ (xmse n C W al l)). apply Qcmult_le_compat_r; [exact Gl|]. exact (Qcle_trans _ _ _ X Gi).
  Qed.
  Lemma mse_nonneg i : i < n -> (0 <= xmse n C W al i)%Qc.
  Proof.
    intro Hi. unfold xmse. assert (A := proc_nonneg i Hi).
    assert (B : (0 <= xparam n C W al i)%Qc); [|qlra].
    destruct (xdeg n C W al) eqn:Dg; [unfold xparam; rewrite Dg; apply Qcle_refl|].
    eapply Qcle_trans; [|apply param_ge; auto]. apply qc_mul_nonneg; [apply qc_sq_nonneg|apply Rr_nonneg; auto].
  Qed.
  Lemma mse0 : xmse n C W al 0 = 0%Qc.
  Proof.
    unfold xmse, xproc, xparam. destruct (xdeg n C W al); [ring|].
    rewrite sumf_0, !prodf_0. ring.
  Qed.
  Lemma tot_le : (sqrt (Q2R (xtot n C W al)) <= rsum 0 n (fun i => sqrt (Q2R (xmse n C W al i))))%R.
  Proof.
    set (e := xmse n C W al). assert (Pn : (0 <= rsum 0 n (fun i => sqrt (Q2R (e i))))%R) by (apply rsum_nonneg; intros; apply sqrt_pos).
    destruct (xdeg n C W al) eqn:Dg.
    - unfold xtot. rewrite Dg, Q2R_zero, sqrt_0. auto.
    - assert (T : xtot n C W al = sumf 1 (n - 1) (fun i => e i + qz 2 * sumf (S i) (1 + (n - 1) - S i) (fun l => U i * U l * Rr i))%Qc).
      { unfold xtot. rewrite Dg. apply sumf_ext. intros i Hi. fold e f s. f_equal. fold (U i). 
        replace (1 + (n - 1) - S i) with (n - 1 - i) by lia.
        rewrite (sumf_mulc_ext _ _ (U i * Rr i)%Qc (fun l => U i * U l * Rr i)%Qc U) by (intros; ring).
        change (sumf (n - 1 - i) i (fun j => s j / (f j * f j) / sumf 0 (n - 1 - j) (fun l => C l j))%Qc) with (Rr i).
        change (sumf (S i) (n - 1 - i) (fun l => projected n C f l (n - 1))) with (sumf (S i) (n - 1 - i) U). ring. }
      rewrite T. clear T.
      assert (B := pairs_le e (fun i l => U i * U l * Rr i)%Qc (n - 1) 1
        ltac:(intros i Hi; apply mse_nonneg; lia) ltac:(intros i l H1 H2 H3; apply pair_le; auto; lia)).
      assert (E0 : rsum 0 n (fun i => sqrt (Q2R (e i))) = rsum 1 (n - 1) (fun i => sqrt (Q2R (e i)))).
      { unfold rsum. replace n with (S (n - 1)) at 1 by lia. cbn [seq map fold_right]. unfold e at 1. rewrite mse0, Q2R_zero, sqrt_0. lra. }
      rewrite <- E0 in B. rewrite <- (sqrt_square (rsum 0 n _)) by exact Pn.
      apply sqrt_le_1_alt. exact B.
  Qed.
End Total.

(** ** The table *)

Lemma FR_inj a b : FR a = FR b -> a = b. Proof. intro H. injection H. auto. Qed.
Section Table.
  Variables (m : lmat) (n : nat) (C : nat -> nat -> Qc).
  Hypothesis HR : regular m n C.
  Hypothesis HP : positive n C.
  Hypothesis Hn : 3 < n.
  Hypothesis Ev : tail_fits (m_cols m).
  Variable cl : list nat.
  Hypothesis D : clvi m = Ok cl.
  Variables (ind : list (list val)) (W : nat -> nat -> Qc).
  Hypothesis HW : weights ind n W.
  Variables (al : nat) (v : string) (tail : val) (k : mack_result).
  Hypothesis K : mack_cl (mkTri m "origin" "dev" v) cl ind al tail = Ok k.

  Let e := xmse n C W al.
  Let T := xtot n C W al.
  Let u i := (xlat n C i * xcdf n C W al i)%Qc.
  Let q i := (xlat n C i * xcdf n C W al i - xlat n C i)%Qc.

  Lemma e_nonneg i : i < n -> (0 <= e i)%Qc.
  Proof.
    intro Hi. destruct (c33_ge m n C HR HP Hn Ev cl D ind W HW al v tail k K) as (e' & T' & E & _ & P' & _).
    rewrite (k_pure m n C HR HP Hn Ev cl D ind W HW al v tail k K) in E. cbn [k_mse mack_pure] in E.
    assert (X := f_equal (fun l => nth i l NaN) E). cbv beta in X. rewrite !nth_map_seq in X by lia. injection X as X.
    unfold e. simpl in X. rewrite X. apply P'. auto.
  Qed.
  Lemma T_ge : (sumf 0 n e <= T)%Qc.
  Proof.
    destruct (c33_ge m n C HR HP Hn Ev cl D ind W HW al v tail k K) as (e' & T' & E & Et & P' & _ & L).
    rewrite (k_pure m n C HR HP Hn Ev cl D ind W HW al v tail k K) in E, Et. cbn [k_mse k_mse_total mack_pure] in E, Et.
    injection Et as Et. unfold T. rewrite Et. rewrite (sumf_ext 0 n e e'); auto. intros i Hi.
    assert (X := f_equal (fun l => nth i l NaN) E). cbv beta in X. rewrite !nth_map_seq in X by lia. injection X as X. exact X.
  Qed.
  Lemma T_nonneg : (0 <= T)%Qc.
  Proof. eapply Qcle_trans; [|exact T_ge]. apply sumf_nonneg. intros. apply e_nonneg. lia. Qed.

  Definition cv_of (x : R) (p : Qc) : fl := fdiv (FR x) (FR (Q2R p)).
  Definition trow (i : nat) : mrow :=
    mkMrow (Some (nth i (m_idx m) 0%Z)) (Some (nth (n - 1 - i) (m_cols m) 0%Z)) (Fin (xcdf n C W al i))
           (vdiv (Fin 1%Qc) (Fin (xcdf n C W al i))) (Fin (xlat n C i)) (Fin (u i)) (Fin (q i))
           (FR (sqrt (Q2R (e i)))) (if i =? 0 then FNaN else cv_of (sqrt (Q2R (e i))) (q i)).
  Definition ttot : mrow :=
    mkMrow None None NaN NaN (Fin (sumf 0 n (xlat n C))) (Fin (sumf 0 n u)) (Fin (sumf 0 n q))
           (FR (sqrt (Q2R T))) (cv_of (sqrt (Q2R T)) (sumf 0 n q)).

  Lemma table_eq : mack_table k = map trow (seq 0 n) ++ [ttot].
  Proof.
    rewrite (k_pure m n C HR HP Hn Ev cl D ind W HW al v tail k K).
    unfold mack_table, mack_cvs, mack_std_errors, mack_reserves. cbn [mack_pure k_cl c_rows c_total k_mse k_mse_total snd].
    rewrite !map_map. cbn [xrow s_origin s_maturity s_cldf s_emergence s_latest s_ultimate s_reserve].
    set (os := map (fun x => nth x (m_idx m) 0%Z) (seq 0 n)).
    assert (Lx : length (m_idx m) = n) by (destruct HR as (Hx & _); auto; apply HR).
    assert (Eo : os = m_idx m).
    { unfold os. rewrite <- Lx. apply nth_ext with 0%Z 0%Z; rewrite map_length, seq_length; auto.
      intros i Hi. rewrite nth_map_seq by lia. reflexivity. }
    assert (CA : forall A B (l : list nat) (g : nat -> A) (h : nat -> B) a b,
      combine (map g l ++ [a]) (map h l ++ [b]) = map (fun i => (g i, h i)) l ++ [(a, b)]).
    { intros A B l g h a b. induction l as [|x l IH]; [reflexivity|]. simpl. rewrite IH. reflexivity. }
    rewrite CA, map_app, map_map. cbn [map fst snd]. rewrite CA, CA, map_app, map_map. cbn [map fst snd].
    f_equal.
    - apply map_ext_in. intros i Hi. apply in_seq in Hi. rewrite Eo.
      rewrite fsqrt_fin by (apply e_nonneg; lia). unfold blank_first. cbn [y_origin y_maturity y_cldf y_emergence y_latest y_ultimate y_reserve y_std_error].
      unfold trow, cv_of. fold (u i) (q i).
      assert (Z : (nth i (m_idx m) 0 =? zmin (m_idx m))%Z = (i =? 0)).
      { destruct HR as (I & _). rewrite BootClaims2.zmin_sorted by (auto; intro N; rewrite N in Lx; simpl in Lx; lia).
        destruct i as [|i]; [apply Z.eqb_refl|]. apply Z.eqb_neq.
        assert (nth 0 (m_idx m) 0 < nth (S i) (m_idx m) 0)%Z; [|lia]. apply zsorted_nth; auto; lia. }
      rewrite Z. destruct (i =? 0); reflexivity.
    - rewrite fsqrt_fin by apply T_nonneg. reflexivity.
  Qed.

  Lemma c80_cv r : In r (mack_table k) -> y_origin r <> Some (nth 0 (m_idx m) 0%Z) ->
    forall se p, y_std_error r = FR se -> y_reserve r = Fin p -> p <> 0%Qc -> y_cv r = FR (se / Q2R p).
  Proof.
    intros Hr Ho se p Es Er Np.
    assert (G : forall x, cv_of x p = FR (x / Q2R p)).
    { intro x. unfold cv_of, fdiv. destruct (Req_EM_T (Q2R p) 0) as [Z|Z]; [|reflexivity].
      exfalso. apply Np. apply Qc_is_canon. apply eqR_Qeq. rewrite Z. symmetry. exact Q2R_zero. }
    rewrite table_eq in Hr. apply in_app_or in Hr as [Hr|[<-|[]]].
    - apply in_map_iff in Hr as (i & <- & Hi). cbn [trow y_origin y_std_error y_reserve y_cv] in *.
      destruct i as [|i]; [congruence|]. cbn [Nat.eqb]. injection Es as <-. injection Er as <-. apply G.
    - cbn [ttot y_origin y_std_error y_reserve y_cv] in *. injection Es as <-. injection Er as <-. apply G.
  Qed.

  Lemma c80_table :
    exists e T, k_mse k = map (fun i => Fin (e i)) (seq 0 n) /\ k_mse_total k = Fin T /\
    let se i := sqrt (Q2R (e i)) in let se_total := sqrt (Q2R T) in
    map y_origin (mack_table k) = map Some (m_idx m) ++ [None] /\
    map (fun r => (y_maturity r, y_cldf r, y_emergence r)) (mack_table k) =
      map (fun r => (Some (s_maturity r), s_cldf r, s_emergence r)) (c_rows (k_cl k)) ++ [(None, NaN, NaN)] /\
    map (fun r => (y_latest r, y_ultimate r, y_reserve r)) (mack_table k) =
      map (fun r => (s_latest r, s_ultimate r, s_reserve r)) (c_rows (k_cl k)) ++ [c_total (k_cl k)] /\
    map y_std_error (mack_table k) = map (fun i => FR (se i)) (seq 0 n) ++ [FR se_total] /\
    (forall r, In r (mack_table k) -> y_origin r = Some (nth 0 (m_idx m) 0%Z) -> y_std_error r = FR 0 /\ y_cv r = FNaN) /\
    (forall r, In r (mack_table k) -> y_origin r <> Some (nth 0 (m_idx m) 0%Z) ->
       forall x p, y_std_error r = FR x -> y_reserve r = Fin p -> p <> 0%Qc -> y_cv r = FR (x / Q2R p)) /\
    (sqrt (Q2R (sumf 0 n e)) <= se_total)%R /\
    (al = 1 -> (forall i j, i + j < n - 1 -> (W i j <= 1)%Qc) -> (se_total <= fold_right Rplus 0 (map se (seq 0 n)))%R).
  Proof.
    exists e, T. assert (Kp := k_pure m n C HR HP Hn Ev cl D ind W HW al v tail k K).
    split; [rewrite Kp; reflexivity|]. split; [rewrite Kp; reflexivity|]. cbv zeta.
    assert (Lx : length (m_idx m) = n) by apply HR.
    rewrite table_eq. split; [|split; [|split; [|split; [|split; [|split; [|split]]]]]].
    - rewrite map_app, map_map. f_equal. cbn [trow y_origin]. rewrite <- Lx.
      apply nth_ext with None None; [rewrite !map_length, seq_length; auto|].
      intros i Hi. rewrite map_length, seq_length in Hi. rewrite nth_map_seq by auto.
      rewrite (nth_indep _ None (Some 0%Z)) by (rewrite map_length; auto). rewrite map_nth. reflexivity.
    - rewrite map_app, map_map, Kp. cbn [mack_pure k_cl c_rows]. rewrite map_map. reflexivity.
    - rewrite map_app, map_map, Kp. cbn [mack_pure k_cl c_rows c_total]. rewrite map_map. reflexivity.
    - rewrite map_app, map_map. reflexivity.
    - intros r Hr Ho. apply in_app_or in Hr as [Hr|[<-|[]]]; [|discriminate].
      apply in_map_iff in Hr as (i & <- & Hi). apply in_seq in Hi. cbn [trow y_origin y_std_error y_cv] in *.
      injection Ho as Ho. assert (i = 0).
      { destruct i as [|i]; auto. exfalso. assert (nth 0 (m_idx m) 0 < nth (S i) (m_idx m) 0)%Z; [|lia].
        apply zsorted_nth; [apply HR|lia]. }
      subst i. split; [|reflexivity]. unfold e. rewrite mse0, Q2R_zero, sqrt_0. reflexivity.
    - intros r Hr. rewrite <- table_eq in Hr. apply c80_cv; auto.
    - apply sqrt_le_1_alt, Q2R_le, T_ge.
    - intros A1 W1. exact (tot_le m n C HR HP Hn Ev cl D ind W HW al v tail k K A1 W1).
  Qed.

  Lemma q0 : q 0 = 0%Qc.
  Proof.
    unfold q, xcdf. replace (n - 1 - 0) with (n - 1) by lia. rewrite prodf_Sl, prodf_0. unfold xf.
    replace (S (n - 1) <? n) with false by (symmetry; apply Nat.ltb_ge; lia). ring.
  Qed.
  Lemma c80_cv_bound (c : R) : al = 1 -> (forall i j, i + j < n - 1 -> (W i j <= 1)%Qc) ->
    (forall r o, In r (mack_table k) -> y_origin r = Some o -> o <> nth 0 (m_idx m) 0%Z ->
       exists p x, y_reserve r = Fin p /\ (0 < p)%Qc /\ y_cv r = FR x /\ (x <= c)%R) ->
    forall r, In r (mack_table k) -> y_origin r = None -> exists x, y_cv r = FR x /\ (x <= c)%R.
  Proof.
    intros A1 W1 H r Hr Ho. assert (TL := tot_le m n C HR HP Hn Ev cl D ind W HW al v tail k K A1 W1).
    fold T e in TL. assert (Lx : length (m_idx m) = n) by apply HR.
    assert (G : forall i, 1 <= i < 1 + (n - 1) -> (0 < q i)%Qc /\ (sqrt (Q2R (e i)) <= c * Q2R (q i))%R).
    { intros i Hi. destruct (H (trow i) (nth i (m_idx m) 0%Z)) as (p & x & E1 & E2 & E3 & E4).
      - rewrite table_eq. apply in_or_app. left. apply in_map, in_seq. lia.
      - reflexivity.
      - intro Z. assert (nth 0 (m_idx m) 0 < nth i (m_idx m) 0)%Z; [|lia]. apply zsorted_nth; [apply HR|lia].
      - cbn [trow y_reserve y_cv] in *. injection E1 as <-. split; auto.
        destruct i as [|i]; [lia|]. cbn [Nat.eqb] in E3. unfold cv_of, fdiv in E3.
        assert (Qp := Q2R_pos _ E2). destruct (Req_EM_T (Q2R (q (S i))) 0) as [Z|Z]; [lra|].
        apply FR_inj in E3. rewrite <- E3 in E4. apply (Rmult_le_compat_r _ _ _ (Rlt_le _ _ Qp)) in E4.
        unfold Rdiv in E4. rewrite Rmult_assoc, Rinv_l in E4 by auto. lra. }
    assert (Qt : sumf 0 n q = sumf 1 (n - 1) q).
    { replace n with (S (n - 1)) at 1 by lia. rewrite sumf_Sl, q0. apply Qcplus_0_l. }
    assert (Qpos : (0 < sumf 0 n q)%Qc) by (rewrite Qt; apply sumf_pos; [lia|intros; apply G; lia]).
    assert (Rp := Q2R_pos _ Qpos).
    assert (B : (sqrt (Q2R T) <= c * Q2R (sumf 0 n q))%R).
    { eapply Rle_trans; [exact TL|].
      unfold rsum at 1. replace n with (S (n - 1)) at 1 by lia. cbn [seq map fold_right].
      unfold e at 1. rewrite mse0, Q2R_zero, sqrt_0, Rplus_0_l. fold (rsum 1 (n - 1) (fun i => sqrt (Q2R (e i)))).
      rewrite Qt, Q2R_sumf. change (fold_right Rplus 0%R (map (fun i => Q2R (q i)) (seq 1 (n - 1)))) with (rsum 1 (n - 1) (fun i => Q2R (q i))).
      rewrite <- rsum_mulc. apply rsum_le. intros i Hi. apply G. exact Hi. }
    rewrite table_eq in Hr. apply in_app_or in Hr as [Hr|[<-|[]]].
    - apply in_map_iff in Hr as (i & <- & Hi). discriminate.
    - cbn [ttot y_cv]. unfold cv_of, fdiv. destruct (Req_EM_T (Q2R (sumf 0 n q)) 0) as [Z|Z]; [lra|].
      eexists. split; [reflexivity|]. apply (Rmult_le_reg_r (Q2R (sumf 0 n q))); auto.
      unfold Rdiv. rewrite Rmult_assoc, Rinv_l by auto. lra.
  Qed.
End Table.

(** A sum of roots is at most the root of the number of terms times the sum. *)
Lemma roots_le (e : nat -> Qc) k : (forall i, i < k -> (0 <= e i)%Qc) ->
  (rsum 0 k (fun i => sqrt (Q2R (e i))) * rsum 0 k (fun i => sqrt (Q2R (e i))) <= INR k * Q2R (sumf 0 k e))%R.
Proof.
  intro H. induction k as [|k IH]; [unfold rsum; rewrite sumf_0, Q2R_zero; simpl; lra|].
  assert (I := IH ltac:(intros; apply H; lia)).
  assert (E : rsum 0 (S k) (fun i => sqrt (Q2R (e i))) = (rsum 0 k (fun i => sqrt (Q2R (e i))) + sqrt (Q2R (e k)))%R).
  { unfold rsum. rewrite seq_S, map_app, fold_right_app. cbn [plus map fold_right].
    generalize (map (fun i => sqrt (Q2R (e i))) (seq 0 k)) (sqrt (Q2R (e k))). intros L x. induction L as [|y L IL]; cbn [fold_right]; [lra|]. rewrite IL. lra. }
  rewrite E, sumf_Sr, Q2R_add. cbn [plus]. rewrite S_INR.
  assert (Ek := Q2R_le _ _ (H k ltac:(lia))). rewrite Q2R_zero in Ek. assert (Sk := sqrt_sqrt _ Ek).
  set (x := sqrt (Q2R (e k))) in *. set (S0 := rsum 0 k (fun i => sqrt (Q2R (e i)))) in *.
  set (Q := Q2R (sumf 0 k e)) in *. rewrite <- Sk.
  assert (Nk : (0 <= INR k)%R) by apply pos_INR.
  (* 2 S0 x <= Q + k x^2 because (S0)^2 <= k Q *)
  destruct k as [|k].
  - unfold S0, Q, rsum. rewrite sumf_0, Q2R_zero. simpl. lra.
  - set (N := INR (S k)) in *. assert (Np : (0 < N)%R) by (apply lt_0_INR; lia).
    assert (X : (0 <= (S0 - N * x) * (S0 - N * x))%R) by apply Rle_0_sqr.
    assert (Y : (2 * N * (S0 * x) <= N * Q + N * (N * (x * x)))%R) by nra.
    assert (Z : (2 * (S0 * x) <= Q + N * (x * x))%R) by (apply (Rmult_le_reg_l N); nra). nra.
Qed.
