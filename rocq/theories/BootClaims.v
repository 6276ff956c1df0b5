(** Proofs of C38 - C43. *)

From Coq Require Import String QArith Qcanon ZArith List Bool Lia Permutation Sorting.Sorted.
From Verif Require Import Val Frame Triangle A2A Base Mack Boot ListLib QcLib Spec Spec2 TblFacts ConvFacts FillFacts
  TriClaims4 RegFacts AvgFacts MackFacts BaseClaims BootFit BootLib BootSim.
Import ListNotations.
Open Scope string_scope.
Open Scope list_scope.
Open Scope nat_scope.

Lemma seq_last n : 0 < n -> seq 0 n = seq 0 (n - 1) ++ [n - 1].
Proof. destruct n as [|k]; [lia|]. intros _. rewrite seq_S. replace (S k - 1) with k by lia. auto. Qed.

Section Call.
  Variables (m : lmat) (n : nat) (C : nat -> nat -> Qc).
  Hypothesis R : regular m n C.
  Hypothesis P : positive n C.
  Hypothesis Hn : 2 < n.
  Hypothesis Ev : tail_fits (m_cols m).
  Variables (ind : list (list val)) (w : nat -> nat -> bool).
  Hypothesis Hi : forall i j, i + j < n - 1 -> cell ind i j = Fin (if w i j then 1 else 0)%Qc.
  Hypothesis Hl : forall j, j < n - 1 -> w (n - 2 - j) j = true.
  Variables (gm : list val -> val) (rt : val -> val).

  Let f := vol_factor n C.
  Let g := fun j => if S j <? n then vol_factor n C j else 1%Qc.
  Let os := m_idx m.
  Let ds := m_cols m.

  Lemma fitc_g i j : i < n -> fitc n C g i j = fitc n C f i j.
  Proof.
    intro L. unfold fitc. apply (f_equal2 Qcdiv); auto. apply prodf_ext. intros k Hk. unfold g. apply ltb_if. lia.
  Qed.
  Lemma incr_g i j : i < n -> incr_of (fitc n C g) i j = incr_of (fitc n C f) i j.
  Proof. intro L. destruct j; simpl; rewrite !fitc_g by auto; auto. Qed.

  Definition adjc : val := rt (vdiv (vz (Z.of_nat (nbr_cells m))) (vz (dof m))).
  Definition ru : lmat := mkMat os ds (mk n n (rus n C f rt)).
  Definition ra : lmat := mkMat os ds (mk n n (fun i j => vmul adjc (rus n C f rt i j))).

  Lemma boot_eq cl rl sims par rng :
    let sd := sampling_dist ra in
    let rs := simulate rt m cl rl (rmat os ds n (incr_of (fitc n C f))) (scale_param m ru) sims (fst (rng sd)) (snd (rng sd)) in
    let lt := map (fun i => (nth i os 0%Z, Fin (C i (n - 1 - i)%nat))) (seq 0 n) in
    let ult o := if (o =? zmin (map fst lt))%Z then slookup lt o else mean_by v_ultimate rs o in
    let rows := map (fun p => (fst p, snd p, ult (fst p), vsub (ult (fst p)) (snd p))) lt in
    boot_cl gm rt (mkTri m "origin" "dev" "value") cl rl ind sims par rng =
    if negb par && (0 <? sims) && (List.length sd =? 0) then Err ValueError else
    Ok (mkBoot (map (fun j => (nth j ds 0%Z, Fin (g j))) (seq 0 n)) (rmat os ds n (fitc n C f))
          (rmat os ds n (incr_of (fitc n C f))) ru ra (scale_param m ru) (dof m) sd rs rows
          (skipsum (map (fun r => snd (fst (fst r))) rows), skipsum (map (fun r => snd (fst r)) rows),
           skipsum (map (fun r => snd r) rows))).
  Proof.
    intros sd rs lt ult rows. assert (R' := R). apply regular_rmat in R' as (E & So & Sd & Lo & Ld).
    assert (Fp : forall j, j < n - 1 -> (0 < g j)%Qc).
    { intros j Hj. unfold g. rewrite ltb_if by lia. apply vol_pos; auto; lia. }
    assert (E1 := ldfs_of_label_eq os ds n C Sd Lo Ld ltac:(lia) P ind w Hi Hl gm Hn Ev Weighted 0 (Fin 1%Qc)).
    fold os ds in E. rewrite <- E in E1. change (avg_label Weighted 0) with "all-weighted" in E1.
    assert (E2 : ldfs_of_label gm m ind "all-weighted" (Fin 1%Qc) = Ok (map (fun j => (nth j ds 0%Z, Fin (g j))) (seq 0 n))).
    { rewrite E1 by (apply in_avg_specs; auto). f_equal. apply map_seq_ext. intros j Hj. f_equal. unfold g.
      destruct (S j <? n); auto. }
    unfold boot_cl. cbn [t_mat t_v]. rewrite E2. cbn [bind].
    assert (E3 : latest_by_origin (mkTri m "origin" "dev" "value") = Ok lt).
    { rewrite E. apply r_latest_by_origin; auto. lia. }
    rewrite E3. cbn [bind]. rewrite map_map. cbn [snd].
    assert (E4 : tri_fit_cum m (map (fun x => Fin (g x)) (seq 0 n)) = Ok (rmat os ds n (fitc n C g))).
    { rewrite E. apply r_fit_cum; auto; try lia. intros j Hj. unfold at1. rewrite (nth_map_seq (fun x => Fin (g x))) by auto. auto. }
    rewrite E4. cbn [bind]. rewrite (r_diff os ds n) by (auto; lia).
    assert (E5 : rmat os ds n (fitc n C g) = rmat os ds n (fitc n C f)).
    { unfold rmat. f_equal. apply mk_ext. intros i j A B. unfold rc. rewrite fitc_g by auto. auto. }
    assert (E6 : rmat os ds n (incr_of (fitc n C g)) = rmat os ds n (incr_of (fitc n C f))).
    { unfold rmat. f_equal. apply mk_ext. intros i j A B. unfold rc. rewrite incr_g by auto. auto. }
    rewrite E5, E6.
    assert (E7 : resid_us rt (mkTri m "origin" "dev" "value") (rmat os ds n (incr_of (fitc n C f))) = Ok ru).
    { rewrite E. apply r_resid_us; auto; lia. }
    rewrite E7. cbn [bind].
    assert (E8 : resid_adj rt m ru = ra).
    { unfold resid_adj, ru, ra. rewrite fmap_mk. auto. }
    rewrite E8. fold sd. change (String.eqb "value" "value") with true. cbn [negb].
    destruct (negb par && (0 <? sims) && (List.length sd =? 0)); auto.
  Qed.

  (** ** C38 *)

  Lemma c38 cl rl sims par rng b :
    boot_cl gm rt (mkTri m "origin" "dev" "value") cl rl ind sims par rng = Ok b ->
    exists D, regular (o_fit_cum b) n D /\ m_idx (o_fit_cum b) = m_idx m /\ m_cols (o_fit_cum b) = m_cols m /\
      regular (o_fit_incr b) n (incr_of D) /\ m_idx (o_fit_incr b) = m_idx m /\ m_cols (o_fit_incr b) = m_cols m /\
      (forall i, i < n -> D i (n - 1 - i) = C i (n - 1 - i)) /\
      (forall i j, (i + S j < n)%nat -> D i (S j) = D i j * vol_factor n C j)%Qc /\
      (forall i j, (i + j < n)%nat -> 0 < D i j)%Qc /\
      (forall i, i < n -> sumf 0 (n - i) (fun j => incr_of D i j) = sumf 0 (n - i) (fun j => incr_of C i j)) /\
      (forall j, j < n -> sumf 0 (n - j) (fun i => incr_of D i j) = sumf 0 (n - j) (fun i => incr_of C i j)).
  Proof.
    intro B. rewrite boot_eq in B. cbv zeta in B.
    assert (R' := R). apply regular_rmat in R' as (E & So & Sd & Lo & Ld).
    destruct (negb par && _ && _); [discriminate|]. injection B as <-. cbn [o_fit_cum o_fit_incr].
    assert (Fp : forall j, j < n - 1 -> (0 < f j)%Qc) by (intros j Hj; apply vol_pos; auto; lia).
    exists (fitc n C f). split; [apply rmat_regular; auto|]. split; auto. split; auto.
    split; [apply rmat_regular; auto|]. split; auto. split; auto.
    split; [intros; apply fitc_last|]. split; [intros; apply fitc_step; auto|].
    split; [intros; apply fitc_pos; auto|]. split.
    - intros i A. apply (incr_row n C ltac:(lia) i A).
    - intros j A. apply (incr_col n C ltac:(lia) P j A).
  Qed.

  (** ** C40 *)

  Hypothesis Rt : root_like rt.

  Lemma zero_div (q : Qc) v : q = 0%Qc -> v = NaN \/ (exists r, v = Fin r) ->
    vdiv (Fin q) v = NaN \/ vdiv (Fin q) v = Fin 0%Qc.
  Proof.
    intros -> [->|(r & ->)]; auto. destruct (qceqb_spec r 0) as [Q|Q].
    - subst. auto.
    - rewrite vdiv_fin by auto. right. f_equal. unfold Qcdiv. ring.
  Qed.
  Lemma rt_cases q : rt (Fin q) = NaN \/ exists r, rt (Fin q) = Fin r.
  Proof.
    destruct Rt as (_ & R0 & Rp & Rn). destruct (qc_lt_le_dec 0 q) as [A|A].
    - destruct (Rp q A) as (r & _ & ->). eauto.
    - destruct (qc_lt_le_dec q 0) as [B|B].
      + left. apply Rn. auto.
      + assert (q = 0)%Qc by (apply Qcle_antisym; auto). subst. rewrite R0. eauto.
  Qed.
  Lemma adjc_cases : adjc = NaN \/ exists r, adjc = Fin r.
  Proof.
    unfold adjc. assert (R' := R). apply regular_rmat in R' as (E & So & Sd & Lo & Ld).
    assert (Dp : (0 < dof m)%Z) by (rewrite E; apply r_dof_pos; auto; lia).
    unfold vz. rewrite vdiv_fin. { apply rt_cases. }
    apply qc_pos_neq. replace 0%Qc with (qz 0) by reflexivity. apply qz_lt. auto.
  Qed.
  Definition keepv (v : val) : bool := negb (isnan v) && negb (veqb v (Fin 0%Qc)).
  Lemma drop_zero v : v = NaN \/ v = Fin 0%Qc -> keepv v = false.
  Proof. intros [->| ->]; auto. Qed.
  Lemma mul_zero v : v = NaN \/ v = Fin 0%Qc -> vmul adjc v = NaN \/ vmul adjc v = Fin 0%Qc.
  Proof.
    destruct adjc_cases as [->|(r & ->)]; intros [->| ->]; auto. right. simpl. f_equal. ring.
  Qed.
  Lemma edge_zero i j : i < n -> j < n -> i = n - 1 \/ j = n - 1 -> keepv (vmul adjc (rus n C f rt i j)) = false.
  Proof.
    intros A B D. apply drop_zero, mul_zero. unfold rus. destruct (Nat.ltb_spec (i + j) n) as [L|L]; auto.
    apply zero_div; [|apply rt_cases]. destruct D as [->| ->].
    - replace j with 0 by lia. unfold f. rewrite (corner_row n C ltac:(lia)). ring.
    - replace i with 0 by lia. unfold f. rewrite (corner_col n C ltac:(lia) P). ring.
  Qed.

  Lemma c40_dist : sampling_dist ra = filter keepv (List.concat (m_cells ra)).
  Proof.
    assert (R' := R). apply regular_rmat in R' as (E & So & Sd & Lo & Ld).
    unfold sampling_dist. change (nrows ra) with (List.length os). change (ncols ra) with (List.length ds). 
    unfold os, ds. rewrite Lo, Ld. unfold ra. cbn [m_cells].
    set (h := fun i j => vmul adjc (rus n C f rt i j)). unfold mk at 2.
    change (fun v => negb (isnan v) && negb (veqb v (Fin 0%Qc))) with keepv.
    assert (Er : map (fun i => map (h i) (seq 0 n)) (seq 0 n) = map (fun i => map (h i) (seq 0 n)) (seq 0 (n - 1)) ++ [map (h (n - 1)) (seq 0 n)]).
    { assert (X : forall (F : nat -> list val), map F (seq 0 n) = map F (seq 0 (n - 1)) ++ [F (n - 1)]).
      { intro F. rewrite (seq_last n) at 1 by lia. rewrite map_app. auto. }
      apply X. }
    change (map (fun i => map (fun j => h i j) (seq 0 n)) (seq 0 n)) with (map (fun i => map (h i) (seq 0 n)) (seq 0 n)).
    rewrite Er, concat_app, filter_app. cbn [List.concat]. rewrite app_nil_r.
    assert (Z1 : filter keepv (map (h (n - 1)) (seq 0 n)) = []).
    { assert (G : forall l, (forall j, In j l -> j < n) -> filter keepv (map (h (n - 1)) l) = []).
      { induction l as [|j l IH]; intro B; auto. cbn [map filter]. unfold h at 1. rewrite edge_zero; auto; try lia.
        - apply IH. intros; apply B; right; auto.
        - apply B. left. auto. }
      apply G. intros j Hj. apply in_seq in Hj. lia. }
    rewrite Z1, app_nil_r. 
    assert (G : forall l, (forall i, In i l -> i < n) ->
      filter keepv (List.concat (map (fun i => map (cell (mk n n h) i) (seq 0 (n - 1))) l))
      = filter keepv (List.concat (map (fun i => map (h i) (seq 0 n)) l))).
    { induction l as [|i l IH]; intro B; auto. cbn [map List.concat]. rewrite !filter_app, IH by (intros; apply B; right; auto).
      f_equal. rewrite (seq_last n) by lia.
      rewrite map_app, filter_app. cbn [map filter]. unfold h at 3. rewrite edge_zero; auto; try lia; [|apply B; left; auto].
      rewrite app_nil_r. f_equal. apply map_seq_ext. intros j Hj. apply cell_mk; [apply B; left; auto|lia]. }
    apply G. intros i Hi'. apply in_seq in Hi'. lia.
  Qed.

  Lemma c40 cl rl sims par rng b :
    boot_cl gm rt (mkTri m "origin" "dev" "value") cl rl ind sims par rng = Ok b ->
    o_dist b = filter (fun v => negb (isnan v) && negb (veqb v (Fin 0%Qc))) (List.concat (m_cells (o_resid_adj b))).
  Proof.
    intro B. rewrite boot_eq in B. cbv zeta in B.
    destruct (negb par && _ && _); [discriminate|]. injection B as <-. cbn [o_dist o_resid_adj]. apply c40_dist.
  Qed.
  (** The residuals themselves. *)
  Lemma c40_resid cl rl sims par rng b :
    boot_cl gm rt (mkTri m "origin" "dev" "value") cl rl ind sims par rng = Ok b ->
    exists D, regular (o_fit_incr b) n D /\
     m_idx (o_resid_us b) = m_idx m /\ m_cols (o_resid_us b) = m_cols m /\
     forall i j, i < n -> j < n ->
      cell (m_cells (o_resid_us b)) i j
        = (if i + j <? n then vdiv (Fin (incr_of C i j - D i j)%Qc) (rt (Fin (abs_ (D i j)))) else NaN) /\
      cell (m_cells (o_resid_adj b)) i j
        = vmul (rt (vdiv (vz (Z.of_nat (n * (n + 1) / 2))) (vz (o_dof b)))) (cell (m_cells (o_resid_us b)) i j).
  Proof.
    intro B. rewrite boot_eq in B. cbv zeta in B.
    assert (R' := R). apply regular_rmat in R' as (E & So & Sd & Lo & Ld).
    destruct (negb par && _ && _); [discriminate|]. injection B as <-. cbn [o_fit_incr o_resid_us o_resid_adj o_dof].
    exists (incr_of (fitc n C f)). split; [apply rmat_regular; auto|]. split; auto. split; auto.
    intros i j A D. unfold ra, ru. cbn [m_cells]. rewrite !cell_mk by auto. split; auto. unfold adjc. f_equal. f_equal. f_equal. f_equal. f_equal.
    rewrite E. apply r_nbr_cells; auto. lia.
  Qed.

  (** ** C39 *)
  Lemma c39 cl rl sims par rng b :
    boot_cl gm rt (mkTri m "origin" "dev" "value") cl rl ind sims par rng = Ok b ->
    o_dof b = (Z.of_nat (n * (n + 1) / 2) - (Z.of_nat n + Z.of_nat n - 1) + 2 * Z.of_nat n)%Z.
  Proof.
    intro B. rewrite boot_eq in B. cbv zeta in B.
    assert (R' := R). apply regular_rmat in R' as (E & So & Sd & Lo & Ld).
    destruct (negb par && _ && _); [discriminate|]. injection B as <-. cbn [o_dof]. unfold dof.
    rewrite E, r_nbr_cells by (auto; lia). unfold nrows, ncols. cbn [rmat m_idx m_cols]. rewrite Lo, Ld. lia.
  Qed.

  (** The scale parameter (C40). *)
  Lemma c40_scale cl rl sims par rng b X :
    boot_cl gm rt (mkTri m "origin" "dev" "value") cl rl ind sims par rng = Ok b ->
    (forall i j, i + j < n -> cell (m_cells (o_resid_us b)) i j = Fin (X i j) \/
                              (cell (m_cells (o_resid_us b)) i j = NaN /\ X i j = 0%Qc)) ->
    o_scale b = Fin (sumf 0 n (fun j => sumf 0 (n - j) (fun i => (X i j * X i j)%Qc)) / qz (o_dof b))%Qc.
  Proof.
    intros B HX. assert (Ds := c39 cl rl sims par rng b B). rewrite boot_eq in B. cbv zeta in B.
    assert (R' := R). apply regular_rmat in R' as (E & So & Sd & Lo & Ld).
    destruct (negb par && _ && _); [discriminate|]. injection B as <-. cbn [o_resid_us o_scale o_dof] in *.
    assert (Pd : (0 < dof m)%Z).
    { rewrite Ds. assert (0 <= n * (n + 1) / 2) by apply Nat.le_0_l. lia. }
    unfold scale_param, ru. rewrite fmap_mk, colsums_mk by auto.
    rewrite (map_ext_in _ (fun j => Fin (sumf 0 (n - j) (fun i => (X i j * X i j)%Qc)))).
    - rewrite <- (map_map (fun j => sumf 0 (n - j) (fun i => (X i j * X i j)%Qc)) Fin), skipsum_fin.
      unfold vz. rewrite vdiv_fin; [reflexivity|]. intro Q. change (Q2Qc 0) with (qz 0) in Q. apply qz_inj in Q. lia.
    - intros j Hj. apply in_seq in Hj. apply skipsum_tri; [lia| |].
      + intros i Hi'. specialize (HX i j ltac:(lia)). unfold ru in HX. cbn [m_cells] in HX. rewrite cell_mk in HX by lia.
        destruct HX as [-> | (-> & ->)]; [left|right]; cbn [vpow].
        * cbn [vmul]. f_equal. ring.
        * split; [reflexivity|ring].
      + intros i Hi'. unfold rus. destruct (Nat.ltb_spec (i + j) n); [lia|]. reflexivity.
  Qed.
End Call.
