(** Proof of C42: simulations are independent of each other. *)

From Coq Require Import String QArith Qcanon ZArith List Bool Lia Permutation Sorting.Sorted.
From Verif Require Import Val Frame Triangle A2A Base Mack Boot ListLib QcLib Spec Spec2 TblFacts ConvFacts FillFacts
  TriClaims4 RegFacts AvgFacts MackFacts BuildFacts BaseClaims ZeroClaims BootFit BootLib BootSim BootClaims BootIndep.
Import ListNotations.
Open Scope string_scope.
Open Scope list_scope.
Open Scope nat_scope.

Lemma boot_parts gm rt m v cl rl ind sims par rng b :
  boot_cl gm rt (mkTri m "origin" "dev" v) cl rl ind sims par rng = Ok b ->
  exists ldfs fc ru,
    ldfs_of_label gm m ind "all-weighted" (Fin 1%Qc) = Ok ldfs /\ tri_fit_cum m (map snd ldfs) = Ok fc /\
    resid_us rt (mkTri m "origin" "dev" v) (tri_fit_incr fc) = Ok ru /\
    o_fit_incr b = tri_fit_incr fc /\ o_dist b = sampling_dist (resid_adj rt m ru) /\
    o_reserves b = simulate rt m cl rl (tri_fit_incr fc) (scale_param m ru) sims (fst (rng (o_dist b))) (snd (rng (o_dist b))).
Proof.
  intro B. unfold boot_cl in B. cbn [t_mat t_v] in B.
  destruct (ldfs_of_label _ _ _ _ _) as [ldfs|]; [|discriminate]. cbn [bind] in B.
  destruct (latest_by_origin _); [|discriminate]. cbn [bind] in B.
  destruct (tri_fit_cum _ _) as [fc|] eqn:E; [|discriminate]. cbn [bind] in B.
  destruct (resid_us _ _ _) as [ru|] eqn:E2; [|discriminate]. cbn [bind] in B.
  destruct (negb _); [discriminate|]. destruct (negb par && _ && _); [discriminate|]. injection B as <-. cbn.
  exists ldfs, fc, ru. auto 6.
Qed.

Lemma fit_missing m f fc i j : tri_fit_cum m f = Ok fc -> i < nrows m -> j < ncols m -> cell (m_cells m) i j = NaN ->
  cell (m_cells (tri_fit_incr fc)) i j = NaN.
Proof.
  intros E Hi Hj Ec. unfold tri_fit_cum in E. destruct (mapM _ _) as [rows|] eqn:M; [|discriminate]. cbn [bind] in E. injection E as <-.
  assert (Q := mapM_nth _ _ _ i 0 [] M). rewrite seq_length, seq_nth in Q by auto. specialize (Q Hi). cbn [Nat.add] in Q.
  assert (W : cell rows i j = NaN).
  { unfold cell. unfold fit_row in Q. assert (L : List.length (mrow m i) = ncols m) by (unfold mrow; rewrite map_length, seq_length; auto).
    assert (An : nth j (mrow m i) NaN = NaN) by (unfold mrow; rewrite nth_map_seq by auto; auto).
    assert (S1 := first_nan_spec (mrow m i)). rewrite L in *. cbv zeta in S1.
    destruct (first_nan (mrow m i)) as [[|k]|].
    - discriminate.
    - injection Q as <-. rewrite nth_map_seq by auto. cbn [Nat.add]. destruct (Nat.leb_spec j k) as [A|A]; auto.
      exfalso. apply (proj1 (proj2 S1) j); auto. lia.
    - exfalso. apply (proj1 (proj2 S1) j); auto. }
  unfold tri_fit_incr. cbn [m_cells]. unfold diff_cells. rewrite cell_mk by auto.
  cbn [m_cells]. destruct j as [|j]; rewrite W; auto.
Qed.

Lemma clvi_last m cl : clvi m = Ok cl -> 0 < ncols m -> (forall i, 0 < i < nrows m -> cell (m_cells m) i (ncols m - 1) = NaN) ->
  nth (ncols m - 1) cl 0 = 0.
Proof.
  intros E H Hc. unfold clvi, clvi_cells in E. assert (Q := mapM_nth _ _ _ (ncols m - 1) 0 0 E).
  rewrite seq_length, seq_nth in Q by lia. specialize (Q ltac:(lia)). cbn [Nat.add] in Q.
  destruct (last_valid _) as [k|] eqn:L; [|discriminate]. injection Q as <-. apply last_valid_some in L as (L1 & L2 & _).
  rewrite map_length, seq_length in L1. rewrite nth_map_seq in L2 by auto. cbn [Nat.add] in L2.
  destruct k as [|k]; auto. exfalso. apply L2, Hc. lia.
Qed.

Lemma c42_any gm rt m v cl rl ind sims sims' par par' rng rng' b b' s G G' :
  increasing (m_idx m) -> increasing (m_cols m) -> m_idx m <> [] -> m_cols m <> [] ->
  (forall i, 0 < i < nrows m -> cell (m_cells m) i (ncols m - 1) = NaN) ->
  clvi m = Ok cl -> root_like rt ->
  boot_cl gm rt (mkTri m "origin" "dev" v) cl rl ind sims par rng = Ok b ->
  boot_cl gm rt (mkTri m "origin" "dev" v) cl rl ind sims' par' rng' = Ok b' ->
  (forall j, j < ncols m -> cell (m_cells (o_fit_incr b)) 0 j = NaN \/ exists q, cell (m_cells (o_fit_incr b)) 0 j = Fin q) ->
  (exists q, cell (m_cells (o_fit_incr b)) 0 (ncols m - 1) = Fin q /\ (0 <= q)%Qc) ->
  (forall k, k < sims * (nrows m * ncols m) -> exists q, fst (rng (o_dist b)) k = Fin q) ->
  (forall k, k < sims' * (nrows m * ncols m) -> exists q, fst (rng' (o_dist b')) k = Fin q) ->
  (forall ps k, snd (rng (o_dist b)) ps k = G k (nth k ps (NaN, NaN))) ->
  (forall ps k, snd (rng' (o_dist b')) ps k = G' k (nth k ps (NaN, NaN))) ->
  s < sims -> s < sims' ->
  (forall k, s * (nrows m * ncols m) <= k < S s * (nrows m * ncols m) ->
     fst (rng (o_dist b)) k = fst (rng' (o_dist b')) k /\ forall p, G k p = G' k p) ->
  filter (fun r => v_sim r =? s) (o_reserves b) = filter (fun r => v_sim r =? s) (o_reserves b').
Proof.
  intros So Sd Ni Nd Hc Cl Rt B B' F0 Fl Rf Rf' HG HG' Hs Hs' Ag.
  destruct (boot_parts _ _ _ _ _ _ _ _ _ _ _ B) as (ldfs & fc & ru & P1 & P2 & P3 & P4 & P5 & ->).
  destruct (boot_parts _ _ _ _ _ _ _ _ _ _ _ B') as (ldfs' & fc' & ru' & P1' & P2' & P3' & P4' & P5' & ->).
  rewrite P1 in P1'. injection P1' as <-. rewrite P2 in P2'. injection P2' as <-. rewrite P3 in P3'. injection P3' as <-.
  rewrite P4 in *.
  assert (H : 0 < ncols m) by (unfold ncols; destruct (m_cols m); [congruence|simpl; lia]).
  assert (H' : 0 < nrows m) by (unfold nrows; destruct (m_idx m); [congruence|simpl; lia]).
  eapply simulate_indep; eauto.
  - intros i Hi. eapply fit_missing; eauto; lia.
  - eapply clvi_last; eauto.
Qed.

(** Run-off triangles: the last factor decides. *)
Section Reg.
  Variables (m : lmat) (n : nat) (C : nat -> nat -> Qc).
  Hypothesis R : regular m n C.
  Hypothesis P : positive n C.
  Hypothesis Hn : 2 < n.
  Hypothesis Ev : tail_fits (m_cols m).
  Variables (ind : list (list val)) (w : nat -> nat -> bool).
  Hypothesis Hi : forall i j, i + j < n - 1 -> cell ind i j = Fin (if w i j then 1 else 0)%Qc.
  Hypothesis Hl : forall j, j < n - 1 -> w (n - 2 - j) j = true.
  Variables (gm : list val -> val) (rt : val -> val) (cl rl : list nat).
  Hypothesis Cl : clvi m = Ok cl.
  Hypothesis Rt : root_like rt.
  Hypothesis F1 : (1 <= vol_factor n C (n - 2))%Qc.

  Lemma c42 sims sims' par par' rng rng' b b' s G G' :
    boot_cl gm rt (mkTri m "origin" "dev" "value") cl rl ind sims par rng = Ok b ->
    boot_cl gm rt (mkTri m "origin" "dev" "value") cl rl ind sims' par' rng' = Ok b' ->
    (forall k, k < sims * (n * n) -> exists q, fst (rng (o_dist b)) k = Fin q) ->
    (forall k, k < sims' * (n * n) -> exists q, fst (rng' (o_dist b')) k = Fin q) ->
    (forall ps k, snd (rng (o_dist b)) ps k = G k (nth k ps (NaN, NaN))) ->
    (forall ps k, snd (rng' (o_dist b')) ps k = G' k (nth k ps (NaN, NaN))) ->
    s < sims -> s < sims' ->
    (forall k, s * (n * n) <= k < S s * (n * n) ->
       fst (rng (o_dist b)) k = fst (rng' (o_dist b')) k /\ forall p, G k p = G' k p) ->
    filter (fun r => v_sim r =? s) (o_reserves b) = filter (fun r => v_sim r =? s) (o_reserves b').
  Proof.
    intros B B'.
    assert (R' := R). apply regular_rmat in R' as (E & So & Sd & Lo & Ld).
    assert (Nr : nrows m = n) by exact Lo. assert (Nc : ncols m = n) by exact Ld.
    assert (Fi : o_fit_incr b = rmat (m_idx m) (m_cols m) n (incr_of (fitc n C (vol_factor n C)))).
    { assert (B0 := B). rewrite (boot_eq m n C R P Hn Ev ind w Hi Hl) in B0. cbv zeta in B0.
      destruct (negb par && _ && _); [discriminate|]. injection B0 as <-. reflexivity. }
    assert (Cf : forall j, j < n -> cell (m_cells (o_fit_incr b)) 0 j = Fin (incr_of (fitc n C (vol_factor n C)) 0 j)).
    { intros j Hj. rewrite Fi. cbn [m_cells rmat]. rewrite cell_mk by lia. unfold rc. apply ltb_if. lia. }
    intros Rf Rf' HG HG' Hs Hs' Ag.
    apply (c42_any gm rt m "value" cl rl ind sims sims' par par' rng rng' b b' s G G'); auto;
      rewrite ?Nr, ?Nc; auto.
    - intro Q. rewrite Q in Lo. simpl in Lo. lia.
    - intro Q. rewrite Q in Ld. simpl in Ld. lia.
    - intros i Hi'. rewrite E. cbn [m_cells rmat]. rewrite cell_mk by lia. unfold rc. apply nltb_if. lia.
    - intros j Hj. right. rewrite Cf by auto. eauto.
    - rewrite Cf by lia. eexists. split; [reflexivity|].
      replace (n - 1) with (S (n - 2)) by lia. cbn [incr_of].
      assert (Fp : forall j, j < n - 1 -> (0 < vol_factor n C j)%Qc) by (intros j Hj; apply vol_pos; auto; lia).
      rewrite fitc_step by (auto; lia).
      assert (A : (0 < fitc n C (vol_factor n C) 0 (n - 2))%Qc) by (apply fitc_pos; auto; lia).
      match goal with |- (_ <= ?x * ?f - ?x)%Qc => replace (x * f - x)%Qc with (x * (f - 1))%Qc by ring end.
      apply qc_mul_nonneg; [apply Qclt_le_weak; auto|]. qlra.
  Qed.
End Reg.
