(** The fitted triangle, residuals and sampling distribution of the bootstrap on
    regular run-off triangles. *)

From Coq Require Import String QArith Qcanon ZArith List Bool Lia Permutation Sorting.Sorted.
From Verif Require Import BuildFacts Val Frame Triangle A2A Base Mack Boot ListLib QcLib Spec Spec2 TblFacts ConvFacts FillFacts
  TriClaims4 RegFacts AvgFacts MackFacts.
Import ListNotations.
Open Scope list_scope.
Open Scope nat_scope.

Lemma prodf_pos' a n f : (forall i, a <= i < a + n -> (0 < f i)%Qc) -> (0 < prodf a n f)%Qc.
Proof.
  revert a. induction n as [|n IH]; intros a H.
  - rewrite prodf_0. apply qc_0_lt_1.
  - rewrite prodf_Sl. apply qc_mul_pos; [apply H; lia|]. apply IH. intros; apply H; lia.
Qed.

Lemma rc_obs n C i j : rc n C i j <> NaN <-> i + j < n.
Proof.
  unfold rc. destruct (Nat.ltb_spec (i + j) n); split; intro; auto; try discriminate; try lia; congruence.
Qed.

Section Fitc.
  Variables (n : nat) (C : nat -> nat -> Qc) (f : nat -> Qc).
  Definition fitc (i j : nat) : Qc := (C i (n - 1 - i)%nat / prodf j (n - 1 - i - j) f)%Qc.

  Lemma fitc_last i : fitc i (n - 1 - i) = C i (n - 1 - i)%nat.
  Proof.
    unfold fitc. replace (n - 1 - i - (n - 1 - i)) with 0 by lia. rewrite prodf_0. field. discriminate.
  Qed.
  Lemma fitc_step i j : (forall j, j < n - 1 -> (0 < f j)%Qc) -> i + S j < n -> fitc i (S j) = (fitc i j * f j)%Qc.
  Proof.
    intros Fpos L. unfold fitc. replace (n - 1 - i - j) with (S (n - 1 - i - S j)) by lia. rewrite prodf_Sl.
    assert (A : (0 < f j)%Qc) by (apply Fpos; lia).
    assert (B : (0 < prodf (S j) (n - 1 - i - S j) f)%Qc).
    { apply prodf_pos'. intros k Hk. apply Fpos. lia. }
    field. split; apply qc_pos_neq; auto.
  Qed.
  Lemma fitc_pos i j : (forall j, j < n - 1 -> (0 < f j)%Qc) -> positive n C -> i + j < n -> (0 < fitc i j)%Qc.
  Proof.
    intros Fpos Pos L. unfold fitc. apply qc_div_pos; [apply Pos; lia|].
    apply prodf_pos'. intros k Hk. apply Fpos. lia.
  Qed.

End Fitc.

Section Fit.
  Variables (os ds : list Z) (n : nat) (C : nat -> nat -> Qc).
  Hypothesis So : zsorted os.
  Hypothesis Sd : zsorted ds.
  Hypothesis Lo : length os = n.
  Hypothesis Ld : length ds = n.
  Hypothesis Hn : 0 < n.
  Hypothesis Pos : positive n C.
  Variable f : nat -> Qc.
  Hypothesis Fpos : forall j, j < n - 1 -> (0 < f j)%Qc.

  Let m := rmat os ds n C.

  Lemma r_mrow i : i < n -> mrow m i = rcol n (n - i) (C i).
  Proof.
    intro Hi. unfold mrow, m, rmat, ncols, rcol. cbn [m_cols m_cells]. rewrite Ld.
    apply map_seq_ext. intros j Hj. rewrite cell_mk by lia. unfold rc.
    destruct (Nat.ltb_spec (i + j) n), (Nat.ltb_spec j (n - i)); auto; lia.
  Qed.
  Lemma r_rlvi : rlvi m = Ok (map (fun i => n - 1 - i) (seq 0 n)).
  Proof.
    unfold rlvi. change (nrows m) with (length os). rewrite Lo. apply mapM_ok. intros i Hi. apply in_seq in Hi.
    rewrite r_mrow by lia. assert (E : last_valid (rcol n (n - i) (C i)) = Some (n - 1 - i)).
    { unfold rcol. apply last_valid_map_seq. split; [lia|]. split.
      - rewrite ltb_if by lia. discriminate.
      - intros j Hj. apply nltb_if. lia. }
    rewrite E. auto.
  Qed.

  Lemma back_eq i row fl : i < n -> (forall j, j < n -> at1 fl j = Fin (f j)) ->
    at1 row (n - 1 - i) = Fin (C i (n - 1 - i)%nat) ->
    forall c, c <= n - 1 - i -> back fl row (n - 1 - i) c = Fin ((fitc n C f) i (n - 1 - i - c)).
  Proof.
    intros Hi Hf Hr. induction c as [|c IH]; intro L.
    - cbn [back]. rewrite Nat.sub_0_r, fitc_last. auto.
    - cbn [back]. rewrite IH by lia. rewrite Hf by lia.
      assert (E := fitc_step n C f i (n - 1 - i - S c) Fpos ltac:(lia)).
      replace (S (n - 1 - i - S c)) with (n - 1 - i - c) in E by lia.
      rewrite vdiv_fin by (apply qc_pos_neq, Fpos; lia). f_equal. rewrite E. field.
      apply qc_pos_neq, Fpos. lia.
  Qed.

  Lemma rcol_first_nan' N g : 0 < N <= n -> first_nan (rcol n N g) = if N <? n then Some N else None.
  Proof.
    intros [A B]. destruct (Nat.ltb_spec N n) as [L|L].
    - rewrite rcol_split by auto. destruct (n - N) as [|r] eqn:E; [lia|]. cbn [seq map].
      rewrite (first_nan_prefix (fun i => Fin (g i))); auto. intros; discriminate.
    - apply first_nan_none. intros x Hx. unfold rcol in Hx. apply in_map_iff in Hx as (i & <- & Hi). apply in_seq in Hi.
      rewrite ltb_if by lia. discriminate.
  Qed.

  Lemma fit_row_eq i fl : i < n -> (forall j, j < n -> at1 fl j = Fin (f j)) ->
    fit_row fl (mrow m i) = Ok (map (rc n (fitc n C f) i) (seq 0 n)).
  Proof.
    intros Hi Hf. rewrite r_mrow by auto. unfold fit_row. rewrite rcol_first_nan' by lia.
    assert (L : length (rcol n (n - i) (C i)) = n) by (unfold rcol; rewrite map_length, seq_length; auto).
    assert (Q : Ok (map (fun j => if j <=? n - 1 - i then back fl (rcol n (n - i) (C i)) (n - 1 - i) (n - 1 - i - j)
                      else at1 (rcol n (n - i) (C i)) j) (seq 0 n)) = Ok (map (rc n (fitc n C f) i) (seq 0 n))).
    { f_equal. apply map_seq_ext. intros j Hj. unfold rc. destruct (Nat.leb_spec j (n - 1 - i)) as [A|A].
      - rewrite ltb_if by lia. rewrite (back_eq i); auto; try lia.
        + f_equal. f_equal. lia.
        + unfold at1, rcol. rewrite nth_map_seq by lia. apply ltb_if. lia.
      - rewrite nltb_if by lia. unfold at1, rcol. rewrite nth_map_seq by lia. apply nltb_if. lia. }
    destruct (Nat.ltb_spec (n - i) n) as [A|A].
    - rewrite L. destruct (n - i) as [|k] eqn:E; [lia|]. replace (n - 1 - i) with k in Q by lia. exact Q.
    - rewrite L. replace (n - 1 - i) with (n - 1) in Q by lia. exact Q.
  Qed.

  Lemma r_fit_cum fl : (forall j, j < n -> at1 fl j = Fin (f j)) -> tri_fit_cum m fl = Ok (rmat os ds n (fitc n C f)).
  Proof.
    intro Hf. unfold tri_fit_cum. change (nrows m) with (length os). rewrite Lo.
    rewrite (mapM_ok _ (fun i => map (rc n (fitc n C f) i) (seq 0 n))); auto.
    intros i Hi. apply in_seq in Hi. apply fit_row_eq; auto. lia.
  Qed.

  Lemma r_diff (D : nat -> nat -> Qc) : tri_fit_incr (rmat os ds n D) = rmat os ds n (incr_of D).
  Proof.
    unfold tri_fit_incr, rmat, diff_cells, nrows, ncols. cbn [m_idx m_cols m_cells]. rewrite Lo, Ld. f_equal.
    apply mk_ext. intros i j Hi Hj. destruct j as [|j].
    - rewrite cell_mk by auto. unfold rc, incr_of. auto.
    - rewrite !cell_mk by lia. unfold rc. destruct (Nat.ltb_spec (i + S j) n) as [A|A].
      + rewrite (ltb_if (i + j)) by lia. simpl. auto.
      + destruct (i + j <? n); auto.
  Qed.

  Lemma r_to_incr a b c : to_incr (mkTri m a b c) = Ok (mkTri (rmat os ds n (incr_of C)) "origin" "dev" "value").
  Proof.
    assert (No : os <> []) by (destruct os; [simpl in Lo; lia|discriminate]).
    destruct (to_incr_holds os ds So Sd m (rf os ds n C)) with (a := a) (b := b) (c := c) as (m' & E & H); auto.
    - apply r_holds; auto.
    - intros o d d' Ho Hd Hd' L. apply In_nth with (d := 0%Z) in Ho as (i & Hi & <-).
      apply In_nth with (d := 0%Z) in Hd as (j & Hj & <-). apply In_nth with (d := 0%Z) in Hd' as (k & Hk & <-).
      rewrite !rf_nth by (auto; lia). rewrite !rc_obs. intro.
      assert (j < k); [|lia]. destruct (Nat.lt_trichotomy j k) as [|[->|Q]]; auto; [lia|].
      assert (K := zsorted_nth ds k j 0%Z Sd). lia.
    - intros o d Ho Hd. apply In_nth with (d := 0%Z) in Ho as (i & Hi & <-).
      apply In_nth with (d := 0%Z) in Hd as (j & Hj & <-). rewrite !rf_nth by (auto; lia). unfold rc.
      destruct (i + j <? n); eauto.
    - split.
      + intros o Ho. apply In_nth with (d := 0%Z) in Ho as (i & Hi & <-). exists (nth 0 ds 0%Z).
        split; [apply nth_In; lia|]. rewrite rf_nth by (auto; lia). apply rc_obs. lia.
      + intros o Ho. apply In_nth with (d := 0%Z) in Ho as (i & Hi & <-). exists (nth 0 os 0%Z).
        split; [apply nth_In; lia|]. rewrite rf_nth by (auto; lia). apply rc_obs. lia.
    - intros o d Ho Hd _. apply In_nth with (d := 0%Z) in Ho as (i & Hi & <-).
      apply In_nth with (d := 0%Z) in Hd as (j & Hj & <-). rewrite !rf_nth by (auto; lia). unfold rc.
      destruct (Nat.ltb_spec (i + j) n); auto. right. simpl. apply qcltb_lt. apply Pos. auto.
    - unfold m in *. rewrite E. f_equal. f_equal.
      apply (holds_unique _ _ os ds (dif ds (rf os ds n C))); auto.
      unfold rmat. repeat split; cbn [m_idx m_cols m_cells]; auto.
      + rewrite mk_length. auto.
      + intros row Hr. rewrite Ld. revert row Hr. apply mk_wfm.
      + intros i j Hi Hj. rewrite Lo in Hi. rewrite Ld in Hj.
        etransitivity; [apply (cell_mk n n (rc n (incr_of C)) i j); auto|].
        unfold dif. rewrite zfind_nth by (auto using zsorted_nodup; lia). destruct j as [|j].
        * rewrite rf_nth by (auto; lia). reflexivity.
        * rewrite !rf_nth by (auto; lia). unfold rc. destruct (Nat.ltb_spec (i + S j) n) as [A|A].
          -- rewrite (ltb_if (i + j)) by lia. reflexivity.
          -- destruct (i + j <? n); auto.
  Qed.

  (** ** Residuals *)

  Variable rt : val -> val.
  Hypothesis Rt : root_like rt.

  Let fi := incr_of (fitc n C f).
  Definition rus (i j : nat) : val :=
    if i + j <? n then vdiv (Fin (incr_of C i j - incr_of (fitc n C f) i j)%Qc) (rt (Fin (abs_ (incr_of (fitc n C f) i j)))) else NaN.

  Lemma r_resid_us a b c : resid_us rt (mkTri m a b c) (rmat os ds n fi) = Ok (mkMat os ds (mk n n rus)).
  Proof.
    unfold resid_us. rewrite r_to_incr. cbn [bind t_mat]. unfold rmat. rewrite falign_mk by (auto using zsorted_nodup).
    f_equal. f_equal. apply mk_ext. intros i j Hi Hj. unfold rc, rus. destruct (i + j <? n); auto.
  Qed.

  Lemma r_nbr_cells (D : nat -> nat -> Qc) : nbr_cells (rmat os ds n D) = n * (n + 1) / 2.
  Proof.
    unfold nbr_cells. change (nrows (rmat os ds n D)) with (length os). rewrite Lo.
    assert (E : forall k, k <= n ->
      length (filter (fun v => negb (isnan v)) (concat (map (mrow (rmat os ds n D)) (seq (n - k) k)))) = k * (k + 1) / 2).
    { induction k as [|k IH]; intro L; auto.
      cbn [seq map concat]. rewrite filter_app, app_length. replace (S (n - S k)) with (n - k) by lia. rewrite IH by lia.
      assert (Q : length (filter (fun v => negb (isnan v)) (mrow (rmat os ds n D) (n - S k))) = S k).
      { unfold mrow, rmat, ncols. cbn [m_cols m_cells]. rewrite ?Ld.
        assert (G : forall N M, N <= M -> length (filter (fun v => negb (isnan v)) (rcol M N (D (n - S k)))) = N).
        { intros N M L'. rewrite rcol_split by auto. rewrite filter_app, app_length.
          assert (G1 : forall l : list nat, filter (fun v => negb (isnan v)) (map (fun i => Fin (D (n - S k) i)) l)
                      = map (fun i => Fin (D (n - S k) i)) l).
          { induction l; simpl; auto. f_equal. auto. }
          assert (G2 : forall l : list nat, filter (fun v => negb (isnan v)) (map (fun _ => NaN) l) = []).
          { induction l; simpl; auto. }
          rewrite G1, G2, map_length, seq_length. simpl. lia. }
        etransitivity; [|exact (G (S k) n L)]. f_equal. f_equal. unfold rcol. apply map_seq_ext. intros j Hj. rewrite cell_mk by lia. unfold rc.
        destruct (Nat.ltb_spec (n - S k + j) n), (Nat.ltb_spec j (S k)); auto; lia. }
      rewrite Q. replace (S k * (S k + 1)) with (k * (k + 1) + (S k) * 2) by lia.
      rewrite Nat.div_add by lia. lia. }
    assert (K := E n (le_n n)). rewrite Nat.sub_diag in K. exact K.
  Qed.
  Lemma tri_num k : k * (k + 1) / 2 * 2 = k * (k + 1).
  Proof.
    assert (H : (k * (k + 1)) mod 2 = 0).
    { induction k; auto. replace (S k * (S k + 1)) with (k * (k + 1) + (S k) * 2) by lia.
      rewrite Nat.mod_add by lia. auto. }
    rewrite (Nat.div_mod (k * (k + 1)) 2) at 2 by lia. lia.
  Qed.
  Lemma r_dof_pos D : (0 < dof (rmat os ds n D))%Z.
  Proof.
    unfold dof. rewrite r_nbr_cells. unfold nrows, ncols, rmat. cbn [m_idx m_cols]. rewrite Lo, Ld.
    lia.
  Qed.
End Fit.

(** ** The margins, for the volume-weighted factors *)

Section Margins.
  Variables (n : nat) (C : nat -> nat -> Qc).
  Hypothesis Hn : 0 < n.
  Hypothesis Pos : positive n C.
  Let f := vol_factor n C.

  Lemma vol_pos j : j < n - 1 -> (0 < f j)%Qc.
  Proof.
    intro L. unfold f, vol_factor. apply qc_div_pos; apply sumf_pos; try lia; intros; apply Pos; lia.
  Qed.
  Lemma fit_col j : j < n -> sumf 0 (n - j) (fun i => fitc n C f i j) = sumf 0 (n - j) (fun i => C i j).
  Proof.
    intro Hj. remember (n - 1 - j) as k eqn:E. revert j Hj E. induction k as [|k IH]; intros j Hj E.
    - replace j with (n - 1) by lia. replace (n - (n - 1)) with 1 by lia. rewrite !sumf_Sl, !sumf_0.
      assert (Q := fitc_last n C f 0). rewrite Nat.sub_0_r in Q. rewrite Q. auto.
    - assert (Q := IH (S j) ltac:(lia) ltac:(lia)).
      replace (n - j) with (S (n - S j)) by lia. rewrite !sumf_Sr. simpl Nat.add.
      assert (A : fitc n C f (n - S j) j = C (n - S j)%nat j).
      { assert (B := fitc_last n C f (n - S j)). replace (n - 1 - (n - S j)) with j in B by lia. exact B. }
      rewrite A. f_equal.
      rewrite (sumf_ext 0 (n - S j) (fun i => fitc n C f i (S j)) (fun i => fitc n C f i j * f j)%Qc) in Q.
      2:{ intros i Hi. apply fitc_step; [|lia]. apply vol_pos. }
      assert (F : (0 < f j)%Qc) by (apply vol_pos; lia).
      assert (M : (sumf 0 (n - S j) (fun i => fitc n C f i j) * f j = sumf 0 (n - S j) (fun i => C i (S j)))%Qc).
      { rewrite <- Q. rewrite (sumf_ext 0 (n - S j) (fun i => fitc n C f i j * f j)%Qc (fun i => f j * fitc n C f i j)%Qc) by (intros; ring).
        rewrite sumf_mulc. ring. }
      assert (D : (0 < sumf 0 (n - S j) (fun i => C i j))%Qc) by (apply sumf_pos; [lia|]; intros; apply Pos; lia).
      assert (V : (sumf 0 (n - S j) (fun i => C i (S j)) = f j * sumf 0 (n - S j) (fun i => C i j))%Qc).
      { unfold f, vol_factor. replace (n - 1 - j) with (n - S j) by lia. field. apply qc_pos_neq; auto. }
      rewrite V in M. assert (W : (f j * (sumf 0 (n - S j) (fun i => fitc n C f i j) - sumf 0 (n - S j) (fun i => C i j)) = 0)%Qc).
      { replace (f j * (sumf 0 (n - S j) (fun i => fitc n C f i j) - sumf 0 (n - S j) (fun i => C i j)))%Qc
          with (sumf 0 (n - S j) (fun i => fitc n C f i j) * f j - f j * sumf 0 (n - S j) (fun i => C i j))%Qc by ring.
        rewrite M. ring. }
      apply Qcmult_integral in W as [W|W]; [exfalso; apply (qc_pos_neq _ F W)|].
      replace (sumf 0 (n - S j) (fun i => fitc n C f i j))
        with (sumf 0 (n - S j) (fun i => fitc n C f i j) - sumf 0 (n - S j) (fun i => C i j) + sumf 0 (n - S j) (fun i => C i j))%Qc by ring.
      rewrite W. ring.
  Qed.
  Lemma fit_col' j : S j < n -> sumf 0 (n - S j) (fun i => fitc n C f i j) = sumf 0 (n - S j) (fun i => C i j).
  Proof.
    intro L. assert (Q := fit_col j ltac:(lia)). replace (n - j) with (S (n - S j)) in Q by lia. rewrite !sumf_Sr in Q.
    simpl Nat.add in Q.
    assert (A : fitc n C f (n - S j) j = C (n - S j)%nat j).
    { assert (B := fitc_last n C f (n - S j)). replace (n - 1 - (n - S j)) with j in B by lia. exact B. }
    rewrite A in Q.
    replace (sumf 0 (n - S j) (fun i => fitc n C f i j))
      with (sumf 0 (n - S j) (fun i => fitc n C f i j) + C (n - S j)%nat j - C (n - S j)%nat j)%Qc by ring.
    rewrite Q. ring.
  Qed.
  Lemma incr_col j : j < n ->
    sumf 0 (n - j) (fun i => incr_of (fitc n C f) i j) = sumf 0 (n - j) (fun i => incr_of C i j).
  Proof.
    intro L. destruct j as [|j].
    - unfold incr_of. apply fit_col. auto.
    - unfold incr_of. rewrite !sumf_sub. rewrite fit_col, fit_col' by auto. auto.
  Qed.
  Lemma incr_row_gen (D : nat -> nat -> Qc) i k : sumf 0 (S k) (incr_of D i) = D i k.
  Proof.
    induction k as [|k IH].
    - rewrite sumf_Sl, sumf_0. simpl. ring.
    - rewrite sumf_Sr, IH. simpl. ring.
  Qed.
  Lemma incr_row i : i < n ->
    sumf 0 (n - i) (incr_of (fitc n C f) i) = sumf 0 (n - i) (incr_of C i).
  Proof.
    intro L. replace (n - i) with (S (n - 1 - i)) by lia. rewrite !incr_row_gen. apply fitc_last.
  Qed.
  (** Simulated factors without noise. *)
  Lemma fit_factor j : S j < n ->
    (sumf 0 (n - 1 - j) (fun i => fitc n C f i (S j)) / sumf 0 (n - 1 - j) (fun i => fitc n C f i j) = f j)%Qc.
  Proof.
    intro L. replace (n - 1 - j) with (n - S j) by lia.
    rewrite fit_col, fit_col' by auto. unfold f, vol_factor. replace (n - 1 - j) with (n - S j) by lia. auto.
  Qed.
  (** Corner cells are fitted exactly. *)
  Lemma corner_row : incr_of (fitc n C f) (n - 1) 0 = incr_of C (n - 1) 0.
  Proof. simpl. assert (Q := fitc_last n C f (n - 1)). replace (n - 1 - (n - 1)) with 0 in Q by lia. exact Q. Qed.
  Lemma corner_col : incr_of (fitc n C f) 0 (n - 1) = incr_of C 0 (n - 1).
  Proof.
    assert (Q := incr_col (n - 1) ltac:(lia)). replace (n - (n - 1)) with 1 in Q by lia.
    rewrite !sumf_Sl, !sumf_0 in Q.
    replace (incr_of (fitc n C f) 0 (n - 1)) with (incr_of (fitc n C f) 0 (n - 1) + 0)%Qc by ring. rewrite Q. ring.
  Qed.
End Margins.
