(** base_cl and mack_cl with development periods at any spacing. *)

From Coq Require Import String QArith Qcanon ZArith List Bool Lia Permutation Sorting.Sorted.
From Verif Require Import Val Frame Triangle A2A Base Mack ListLib QcLib Spec CumFacts BuildFacts TriClaims4 RegFacts AvgFacts AvgClaims AvgClaims2
  BaseClaims MackFacts RelFacts SpecSpace.
Import ListNotations.
Open Scope list_scope.
Open Scope nat_scope.

Lemma removelast_firstn (A : Type) (l : list A) : removelast l = firstn (length l - 1) l.
Proof.
  destruct l as [|a l]; auto. revert a. induction l as [|b l IH]; intro a; auto.
  change (a :: removelast (b :: l) = firstn (S (length l)) (a :: b :: l)). cbn [firstn]. f_equal. rewrite IH. f_equal. simpl. lia.
Qed.

Lemma zunion_refl l : zunion l l = l.
Proof.
  unfold zunion. assert (E : listb Z.eqb l l = true); [|rewrite E; auto].
  induction l as [|a l IH]; auto. cbn. rewrite Z.eqb_refl. auto.
Qed.
Lemma sset_keys (s : series) k v x : In x (map fst (sset s k v)) -> In x (map fst s) \/ x = k.
Proof.
  induction s as [|p s IH]; simpl; [intuition|]. destruct (Z.eqb_spec (fst p) k); simpl; intuition.
Qed.
Lemma zvsort_keys (s : series) x : In x (map fst (zvsort s)) -> In x (map fst s).
Proof.
  intro H. eapply Permutation_in; [|exact H]. apply Permutation_map. apply ssort_perm.
Qed.
Lemma combine_keys {B} (a : list Z) (b : list B) x : In x (map fst (combine a b)) -> In x a.
Proof. revert b. induction a; destruct b; simpl; intuition. right. eauto. Qed.
Lemma slookup_none (s : series) k : ~ In k (map fst s) -> slookup s k = NaN.
Proof.
  intro H. unfold slookup. destruct (find _ s) as [p|] eqn:F; auto. apply find_some in F as [F E].
  apply Z.eqb_eq in E. subst k. exfalso. apply H. apply in_map. auto.
Qed.
Lemma cldfs_keys (s : series) x : In x (map fst (cldfs s)) -> In x (map fst s).
Proof. intro H. apply zvsort_keys in H. apply combine_keys in H. auto. Qed.

Lemma smallest_inc ds n : length ds = n -> 2 < n ->
  exists g, increment (firstn (n - 1) ds) = Ok g /\ smallest_early_step ds g.
Proof.
  intros Ld Hn. unfold increment. rewrite <- firstn_map_nth by lia. replace (n - 1) with (S (n - 2)) by lia. rewrite steps_map.
  set (l := map _ (seq 0 (n - 2))).
  assert (N : l <> []) by (unfold l; destruct (n - 2) eqn:Q; [lia|discriminate]).
  exists (zmin l). split; [destruct l; [congruence|auto]|]. unfold smallest_early_step, step. rewrite Ld. split.
  - intros j Hj. apply zmin_le. unfold l. apply in_map_iff. exists j. split; auto. apply in_seq. lia.
  - assert (H := zmin_in l N). unfold l in H at 2. apply in_map_iff in H as (j & E & Hj). apply in_seq in Hj. exists j. split; [lia|auto].
Qed.

Section Space.
  Variables (m : lmat) (n : nat) (C : nat -> nat -> Qc) (cl : list nat) (g : Z).
  Hypothesis R : regular m n C.
  Hypothesis P : positive n C.
  Hypothesis Hn : 2 < n.
  Hypothesis Hc : clvi m = Ok cl.
  Hypothesis G : smallest_early_step (m_cols m) g.
  Let d := nth (n - 1) (m_cols m) 0%Z.
  Let D := (nth (n - 2) (m_cols m) 0 + g)%Z.
  Let m2 := with_last_period m D.

  Lemma sp_inc : increment (firstn (n - 1) (m_cols m)) = Ok g.
  Proof.
    assert (R' := R). apply regular_rmat in R' as (_ & _ & _ & _ & Ld).
    destruct (smallest_inc (m_cols m) n Ld Hn) as (g' & E & (L & j & Hj & Ej)). rewrite E. f_equal.
    destruct G as (L' & j' & Hj' & Ej'). specialize (L j' Hj'). specialize (L' j Hj). lia.
  Qed.
  Lemma sp_pos : (0 < g)%Z.
  Proof.
    assert (R' := R). apply regular_rmat in R' as (_ & _ & Sd & _ & Ld).
    destruct G as (_ & j & Hj & ->). unfold step. assert (Q := zsorted_nth (m_cols m) j (S j) 0%Z Sd ltac:(lia)). lia.
  Qed.
  Lemma sp_cols : m_cols m2 = firstn (n - 1) (m_cols m) ++ [D].
  Proof.
    assert (R' := R). apply regular_rmat in R' as (_ & _ & Sd & _ & Ld).
    unfold m2, with_last_period. cbn [m_cols]. rewrite removelast_firstn, Ld. auto.
  Qed.
  Lemma sp_first : firstn (n - 1) (m_cols m2) = firstn (n - 1) (m_cols m).
  Proof.
    assert (R' := R). apply regular_rmat in R' as (_ & _ & Sd & _ & Ld).
    rewrite sp_cols, firstn_app, firstn_firstn, Nat.min_id, firstn_length. replace (n - 1 - Nat.min (n - 1) (length (m_cols m))) with 0 by lia.
    cbn [firstn]. rewrite app_nil_r. auto.
  Qed.
  Lemma sp_nth j : j < n - 1 -> nth j (m_cols m2) 0%Z = nth j (m_cols m) 0%Z.
  Proof.
    intro Hj. assert (R' := R). apply regular_rmat in R' as (_ & _ & Sd & _ & Ld).
    rewrite sp_cols, app_nth1 by (rewrite firstn_length; lia). rewrite <- (firstn_skipn (n - 1) (m_cols m)) at 2.
    rewrite app_nth1 by (rewrite firstn_length; lia). auto.
  Qed.
  Lemma sp_nth_last : nth (n - 1) (m_cols m2) 0%Z = D.
  Proof.
    assert (R' := R). apply regular_rmat in R' as (_ & _ & Sd & _ & Ld).
    rewrite sp_cols, app_nth2 by (rewrite firstn_length; lia). rewrite firstn_length. replace (n - 1 - _) with 0 by lia. auto.
  Qed.
  Lemma sp_len : length (m_cols m2) = n.
  Proof.
    assert (R' := R). apply regular_rmat in R' as (_ & _ & Sd & _ & Ld).
    rewrite sp_cols, app_length, firstn_length. simpl. lia.
  Qed.
  Lemma sp_below j : j < n - 1 -> (nth j (m_cols m) 0 < D)%Z /\ (nth j (m_cols m) 0 < d)%Z.
  Proof.
    intro Hj. assert (R' := R). apply regular_rmat in R' as (_ & _ & Sd & _ & Ld). assert (Gp := sp_pos).
    assert (A : (nth j (m_cols m) 0 <= nth (n - 2) (m_cols m) 0)%Z).
    { destruct (Nat.eq_dec j (n - 2)) as [->|]; [lia|]. assert (Q := zsorted_nth (m_cols m) j (n - 2) 0%Z Sd ltac:(lia)). lia. }
    assert (Q := zsorted_nth (m_cols m) j (n - 1) 0%Z Sd ltac:(lia)). unfold D, d. lia.
  Qed.
  Lemma sp_sorted : zsorted (m_cols m2).
  Proof.
    assert (R' := R). apply regular_rmat in R' as (_ & _ & Sd & _ & Ld).
    rewrite sp_cols. assert (S1 : zsorted (firstn (n - 1) (m_cols m))) by (apply zsorted_firstn; auto).
    assert (B : forall x, In x (firstn (n - 1) (m_cols m)) -> (x < D)%Z).
    { rewrite <- firstn_map_nth by lia. intros x Hx. apply in_map_iff in Hx as (j & <- & Hj). apply in_seq in Hj. apply sp_below. lia. }
    revert S1 B. generalize (firstn (n - 1) (m_cols m)). clear. intros l S1. induction S1 as [|a l S1 IH F]; intro B; [repeat constructor|].
    cbn [app]. constructor; [apply IH; intros; apply B; right; auto|]. apply Forall_app. split; auto. constructor; auto. apply B. left. auto.
  Qed.
  Lemma sp_regular : regular m2 n C.
  Proof.
    assert (R' := R). apply regular_rmat in R' as (E & So & Sd & Lo & Ld).
    assert (E2 : m2 = rmat (m_idx m) (m_cols m2) n C).
    { unfold m2 at 1, with_last_period, rmat. f_equal. exact (f_equal m_cells E). }
    rewrite E2. apply rmat_regular; auto using sp_sorted, sp_len.
  Qed.
  Lemma sp_fits : tail_fits (m_cols m2).
  Proof.
    unfold tail_fits. rewrite sp_len. destruct G as (L & j & Hj & Ej). assert (R' := R). apply regular_rmat in R' as (_ & _ & _ & _ & Ld).
    rewrite Ld in *. replace (S (n - 2)) with (n - 1) by lia. rewrite sp_nth_last, (sp_nth (n - 2)) by lia. unfold D.
    replace (nth (n - 2) (m_cols m) 0 + g - nth (n - 2) (m_cols m) 0)%Z with g by lia. split.
    - intros k Hk. rewrite !sp_nth by lia. apply L. auto.
    - exists j. split; auto. rewrite !sp_nth by lia. auto.
  Qed.
  Lemma sp_a2a : a2a m2 = a2a m.
  Proof.
    assert (R' := R). apply regular_rmat in R' as (E & So & Sd & Lo & Ld).
    assert (R2 := sp_regular). apply regular_rmat in R2 as (E2 & So2 & Sd2 & Lo2 & Ld2).
    transitivity (rmat (firstn (n - 1) (m_idx m)) (firstn (n - 1) (m_cols m)) (n - 1) (link C)).
    - assert (A := r_a2a (m_idx m2) (m_cols m2) n C Lo2 Ld2 ltac:(lia) P). rewrite <- E2, sp_first in A. exact A.
    - assert (A := r_a2a (m_idx m) (m_cols m) n C Lo Ld ltac:(lia) P). rewrite <- E in A. auto.
  Qed.
  Lemma sp_ncols : ncols m2 = ncols m.
  Proof. assert (R' := R). apply regular_rmat in R' as (_ & _ & _ & _ & Ld). unfold ncols. rewrite sp_len. auto. Qed.
  Lemma sp_avgs gm ind : a2a_avgs gm m2 ind = a2a_avgs gm m ind.
  Proof.
    unfold a2a_avgs. rewrite sp_a2a. apply mapM_ext. intros [a k] _.
    rewrite (mapM_ext (one_avg gm m2 ind a k) (one_avg gm m ind a k)); auto. intros j _.
    unfold one_avg, a2a_adj. rewrite sp_a2a. destruct a; auto. unfold weighted_avg. rewrite sp_ncols. auto.
  Qed.
  Lemma sp_ldfs gm ind s tail : ldfs_of_label gm m2 ind s tail = ldfs_of_label gm m ind s tail.
  Proof. unfold ldfs_of_label. rewrite sp_avgs, sp_a2a. auto. Qed.
  Lemma sp_cols_a2a : m_cols (a2a m) = firstn (n - 1) (m_cols m).
  Proof.
    assert (R' := R). apply regular_rmat in R' as (E & So & Sd & Lo & Ld). assert (A := r_a2a (m_idx m) (m_cols m) n C Lo Ld ltac:(lia) P). rewrite <- E in A. rewrite A. auto.
  Qed.
  Lemma sp_max : zmax (firstn (n - 1) (m_cols m)) = nth (n - 2) (m_cols m) 0%Z.
  Proof. assert (R' := R). apply regular_rmat in R' as (E & So & Sd & Lo & Ld). apply zmax_firstn; auto; lia. Qed.
  Lemma sp_keys gm ind s tail l : ldfs_of_label gm m ind s tail = Ok l -> forall x, In x (map fst l) -> In x (m_cols m2).
  Proof.
    unfold ldfs_of_label. destruct (a2a_avgs gm m ind) as [avgs|]; [|discriminate]. cbn [bind].
    destruct (find _ avgs) as [row|]; [|discriminate]. rewrite sp_cols_a2a, sp_inc. cbn [bind]. rewrite sp_max. fold D.
    intros Q x Hx. injection Q as <-. apply zvsort_keys, sset_keys in Hx. rewrite sp_cols. apply in_or_app.
    destruct Hx as [Hx|Hx]; [left|right; left; auto]. apply combine_keys in Hx. auto.
  Qed.

  Lemma sp_chain v ldfs tail : (forall x, In x (map fst ldfs) -> In x (m_cols m2)) ->
    chain_ladder (mkTri m "origin" "dev" v) cl ldfs tail
    = ok_map (show_last_in D d) (chain_ladder (mkTri m2 "origin" "dev" v) cl ldfs tail).
  Proof.
    intro K. assert (R' := R). apply regular_rmat in R' as (E & So & Sd & Lo & Ld).
    assert (R2 := sp_regular). apply regular_rmat in R2 as (E2 & So2 & Sd2 & Lo2 & Ld2).
    assert (L1 := r_latest_by_origin (m_idx m) (m_cols m) n C So Sd Lo Ld ltac:(lia) v). rewrite <- E in L1.
    assert (L2 := r_latest_by_origin (m_idx m2) (m_cols m2) n C So2 Sd2 Lo2 Ld2 ltac:(lia) v). rewrite <- E2 in L2.
    assert (T1 := r_maturity (m_idx m) (m_cols m) n C Lo Ld ltac:(lia)). rewrite <- E in T1.
    assert (T2 := r_maturity (m_idx m2) (m_cols m2) n C Lo2 Ld2 ltac:(lia)). rewrite <- E2 in T2.
    assert (Hcl : cl = map (fun j => n - 1 - j) (seq 0 n)).
    { assert (Q := r_clvi (m_idx m) (m_cols m) n C Lo Ld ltac:(lia)). rewrite <- E in Q. congruence. }
    unfold chain_ladder, ultimates, reserves. cbn [t_mat]. rewrite L1, L2. change (m_idx m2) with (m_idx m). cbn [bind].
    destruct (bmul _ _) as [p|e]; [|reflexivity]. cbn [bind].
    change (nrows m2) with (nrows m). destruct (length p =? nrows m); [|reflexivity]. cbn [bind].
    rewrite Hcl in *. replace (nrows m) with n by (unfold nrows; auto). rewrite T1, T2. cbn [bind].
    assert (Sq : trisqrd m2 (map (fun j => n - 1 - j) (seq 0 n)) (map snd ldfs) = trisqrd m (map (fun j => n - 1 - j) (seq 0 n)) (map snd ldfs)).
    { unfold trisqrd, trisqrd_cols. rewrite sp_ncols. reflexivity. }
    rewrite Sq. destruct (trisqrd m _ _) as [sq|e]; [|reflexivity]. cbn [bind ok_map].
    unfold show_last_in. cbn [c_rows c_total c_ldfs c_trisqrd c_tail].
    set (ult := zvsort (combine _ p)). set (rsv := zvsort _). set (lt := map _ (seq 0 n)).
    match goal with |- Ok (mkRes ?r1 _ _ _ _) = Ok (mkRes (map _ ?r2) _ _ _ _) =>
      assert (Er : r1 = map (show_last D d) r2);
      [|assert (A1 : map s_latest r1 = map s_latest r2); [|assert (A2 : map s_ultimate r1 = map s_ultimate r2);
        [|assert (A3 : map s_reserve r1 = map s_reserve r2); [|rewrite A1, A2, A3, Er; reflexivity]]]] end;
      rewrite !(combine_nth_seq (m_idx m) n Lo), !map_map; cbn [fst snd];
      apply map_seq_ext; intros i Hi; [|reflexivity|reflexivity|reflexivity].
    unfold show_last. cbn [s_maturity s_origin s_cldf s_emergence s_latest s_ultimate s_reserve].
    destruct (Nat.eq_dec i 0) as [->|N].
    - rewrite Nat.sub_0_r, sp_nth_last, Z.eqb_refl. fold d. destruct (Z.eqb_spec D d) as [->|Q]; [reflexivity|].
      assert (Ln : slookup (cldfs ldfs) d = NaN).
      { apply slookup_none. intro H. apply cldfs_keys, K in H. rewrite sp_cols in H. apply in_app_or in H as [H|[H|[]]]; [|auto].
        rewrite <- firstn_map_nth in H by lia. apply in_map_iff in H as (j & Ej & Hj). apply in_seq in Hj.
        destruct (sp_below j ltac:(lia)). lia. }
      rewrite Ln. reflexivity.
    - rewrite sp_nth by lia. destruct (Z.eqb_spec (nth (n - 1 - i) (m_cols m) 0%Z) D) as [Q|Q]; [|reflexivity].
      destruct (sp_below (n - 1 - i) ltac:(lia)). lia.
  Qed.

  Lemma sp_clvi : clvi m2 = Ok cl.
  Proof.
    unfold clvi in *. rewrite sp_ncols. exact Hc.
  Qed.

  Lemma sp_base gm ind s tail v :
    snd (base_cl gm (mkTri m "origin" "dev" v) cl ind (SelLabel s) tail)
    = ok_map (show_last_in D d) (snd (base_cl gm (mkTri m2 "origin" "dev" v) cl ind (SelLabel s) tail)).
  Proof.
    unfold base_cl, select_ldfs. cbn [t_mat snd]. rewrite sp_ldfs. destruct (ldfs_of_label gm m ind s tail) as [l|e] eqn:L; [|reflexivity].
    cbn [bind]. apply sp_chain. eapply sp_keys; eauto.
  Qed.

  (** *** mack_cl *)
  Lemma sp_mod_tri v : mod_tri (mkTri m2 "origin" "dev" v) = mod_tri (mkTri m "origin" "dev" v) /\
    exists C', mod_tri (mkTri m "origin" "dev" v) = Ok C' /\ m_cols C' = firstn (n - 1) (m_cols m).
  Proof.
    assert (R' := R). apply regular_rmat in R' as (E & So & Sd & Lo & Ld).
    assert (R2 := sp_regular). apply regular_rmat in R2 as (E2 & So2 & Sd2 & Lo2 & Ld2).
    assert (A1 := r_mod_tri (m_idx m) (m_cols m) n C So Sd Lo Ld Hn v). rewrite <- E in A1.
    assert (A2 := r_mod_tri (m_idx m2) (m_cols m2) n C So2 Sd2 Lo2 Ld2 Hn v). rewrite <- E2, sp_first in A2.
    rewrite A1, A2. split; [reflexivity|]. eexists. split; reflexivity.
  Qed.
  Lemma sp_mack ind al tail v :
    mack_cl (mkTri m "origin" "dev" v) cl ind al tail
    = ok_map (show_last_mack D d) (mack_cl (mkTri m2 "origin" "dev" v) cl ind al tail).
  Proof.
    destruct (sp_mod_tri v) as (T & C' & T' & Ec).
    assert (W : mod_a2aind m2 ind = mod_a2aind m ind) by (unfold mod_a2aind; rewrite sp_a2a; auto).
    unfold mack_cl. cbn [t_mat]. 
    assert (L : mack_ldfs (mkTri m2 "origin" "dev" v) ind al (Fin 1%Qc) = mack_ldfs (mkTri m "origin" "dev" v) ind al (Fin 1%Qc)).
    { unfold mack_ldfs. cbn [t_mat]. rewrite T. unfold wC. rewrite W, sp_a2a. reflexivity. }
    rewrite L. clear L. destruct (mack_ldfs _ _ _ _) as [ldfs|e] eqn:El; [|reflexivity]. cbn [bind].
    rewrite sp_chain.
    2:{ unfold mack_ldfs in El. cbn [t_mat] in El. rewrite T' in El. cbn [bind] in El.
        match type of El with context [increment ?c] => assert (Cc : c = firstn (n - 1) (m_cols m)) end.
        { unfold falign. cbn [m_cols]. unfold fmap, mod_a2aind. cbn [m_cols]. rewrite Ec, sp_cols_a2a, !zunion_refl. reflexivity. }
        rewrite Cc, sp_inc in El. cbn [bind] in El. rewrite sp_max in El. injection El as <-.
        intros x Hx. apply sset_keys in Hx. rewrite sp_cols. apply in_or_app.
        destruct Hx as [Hx|Hx]; [left|right; left; auto]. apply combine_keys in Hx. auto. }
    destruct (chain_ladder _ cl ldfs tail) as [r|e]; [|reflexivity]. cbn [ok_map bind].
    assert (Fi : firstn (ncols m2 - 2) (m_cols m2) = firstn (ncols m - 2) (m_cols m)).
    { rewrite sp_ncols. assert (R' := R). apply regular_rmat in R' as (_ & _ & _ & _ & Ld). unfold ncols. rewrite Ld.
      rewrite <- !firstn_map_nth by (rewrite ?sp_len; lia). apply map_seq_ext. intros j Hj. apply sp_nth. lia. }
    assert (V : devp_variance (mkTri m2 "origin" "dev" v) ind ldfs al = devp_variance (mkTri m "origin" "dev" v) ind ldfs al).
    { unfold devp_variance. rewrite T. cbn [t_mat]. rewrite Fi, T'. cbn [bind].
      erewrite mapM_ext; [reflexivity|]. intros q _. unfold devp_cell. cbn [t_mat]. rewrite W, sp_a2a. reflexivity. }
    rewrite V. clear V. destruct (devp_variance _ _ _ _) as [dv|e]; [|reflexivity]. cbn [bind].
    assert (U : ldf_variance (mkTri m2 "origin" "dev" v) ind dv al = ldf_variance (mkTri m "origin" "dev" v) ind dv al).
    { unfold ldf_variance. rewrite T. cbn [t_mat]. rewrite W. reflexivity. }
    rewrite U. clear U. destruct (ldf_variance _ _ _ _) as [lv|e]; [|reflexivity]. cbn [bind].
    change (nrows m2) with (nrows m). rewrite sp_ncols. destruct (negb (nrows m =? ncols m)); [reflexivity|].
    unfold ok_map, show_last_mack. cbn [k_cl k_devpvar k_ldfvar k_proc k_param k_mse k_mse_total].
    assert (Ul : map s_ultimate (c_rows (show_last_in D d r)) = map s_ultimate (c_rows r)).
    { unfold show_last_in. cbn [c_rows]. rewrite map_map. apply map_ext. intro row. unfold show_last.
      destruct (s_maturity row =? D)%Z; reflexivity. }
    rewrite Ul. reflexivity.
  Qed.
End Space.

Lemma fits_iff ds n g : length ds = n -> 2 < n -> smallest_early_step ds g ->
  ((nth (n - 2) ds 0 + g)%Z = nth (n - 1) ds 0%Z <-> tail_fits ds).
Proof.
  intros L Hn (G1 & j & Hj & Ej). unfold tail_fits. rewrite L in *. unfold step in *. replace (S (n - 2)) with (n - 1) by lia. split.
  - intro E. split; [|exists j; split; auto; lia]. intros k Hk. specialize (G1 k Hk). lia.
  - intros (H1 & k & Hk & Ek). specialize (H1 j Hj). specialize (G1 k Hk). lia.
Qed.

Lemma space_base gm m n C cl ind s tail v : regular m n C -> positive n C -> 2 < n -> clvi m = Ok cl ->
  exists g, smallest_early_step (m_cols m) g /\
    let d := nth (n - 1) (m_cols m) 0%Z in
    let D := (nth (n - 2) (m_cols m) 0 + g)%Z in
    let m2 := with_last_period m D in
    regular m2 n C /\ tail_fits (m_cols m2) /\ clvi m2 = Ok cl /\ (D = d <-> tail_fits (m_cols m)) /\
    snd (base_cl gm (mkTri m "origin" "dev" v) cl ind (SelLabel s) tail)
    = ok_map (show_last_in D d) (snd (base_cl gm (mkTri m2 "origin" "dev" v) cl ind (SelLabel s) tail)).
Proof.
  intros R P Hn D. assert (R' := R). apply regular_rmat in R' as (_ & _ & _ & _ & Ld).
  destruct (smallest_inc _ n Ld Hn) as (g & _ & G). exists g. split; auto. cbv zeta.
  split; [eapply sp_regular; eauto|]. split; [eapply sp_fits; eauto|]. split; [eapply sp_clvi; eauto|].
  split; [apply fits_iff; auto|]. eapply sp_base; eauto.
Qed.

Lemma space_mack m n C cl ind al tail v : regular m n C -> positive n C -> 2 < n -> clvi m = Ok cl ->
  exists g, smallest_early_step (m_cols m) g /\
    let d := nth (n - 1) (m_cols m) 0%Z in
    let D := (nth (n - 2) (m_cols m) 0 + g)%Z in
    let m2 := with_last_period m D in
    regular m2 n C /\ tail_fits (m_cols m2) /\ clvi m2 = Ok cl /\ (D = d <-> tail_fits (m_cols m)) /\
    mack_cl (mkTri m "origin" "dev" v) cl ind al tail
    = ok_map (show_last_mack D d) (mack_cl (mkTri m2 "origin" "dev" v) cl ind al tail).
Proof.
  intros R P Hn D. assert (R' := R). apply regular_rmat in R' as (_ & _ & _ & _ & Ld).
  destruct (smallest_inc _ n Ld Hn) as (g & _ & G). exists g. split; auto. cbv zeta.
  split; [eapply sp_regular; eauto|]. split; [eapply sp_fits; eauto|]. split; [eapply sp_clvi; eauto|].
  split; [apply fits_iff; auto|]. eapply sp_mack; eauto.
Qed.

Lemma space_oldest gm m n C cl v tail : regular m n C -> positive n C -> 2 < n -> clvi m = Ok cl ->
  exists r row rest, snd (base_cl gm (mkTri m "origin" "dev" v) cl (a2aind_init m) (SelLabel "all-weighted") (Fin tail)) = Ok r /\
    c_rows r = row :: rest /\
    s_ultimate row = Fin (C 0%nat (n - 1)%nat * tail)%Qc /\
    (tail_fits (m_cols m) -> s_cldf row = Fin tail) /\
    (~ tail_fits (m_cols m) -> s_cldf row = NaN /\ s_emergence row = NaN) /\
    (forall row', In row' rest -> s_cldf row' <> NaN).
Proof.
  intros R P Hn D.
  destruct (space_base gm m n C cl (a2aind_init m) "all-weighted"%string (Fin tail) v R P Hn D) as (g & G & R2 & F2 & D2 & Iff & E).
  set (m2 := with_last_period m _) in *. rewrite E.
  assert (Ei : a2aind_init m2 = a2aind_init m) by (unfold a2aind_init; unfold m2; erewrite sp_a2a; eauto).
  destruct (c23_all_weighted gm m2 n C v cl tail R2 P Hn F2 D2) as (r & B & L).
  rewrite Ei in B.
  destruct (base_pure_inv gm m2 n C v cl (a2aind_init m) _ _ _ r _ R2 ltac:(lia) D2 B L) as (Er & _).
  rewrite B. cbn [snd ok_map]. rewrite Er. unfold show_last_in, base_pure. cbn [c_rows]. rewrite map_map.
  assert (Es : seq 0 n = 0 :: seq 1 (n - 1)) by (destruct n; [lia|]; simpl; rewrite Nat.sub_0_r; auto).
  match goal with |- context [map ?h (seq 0 n)] => set (hh := h) end.
  eexists _, (hh 0), (map hh (seq 1 (n - 1))). split; [reflexivity|]. cbn [c_rows]. split; [rewrite Es; reflexivity|].
  assert (N : forall j, j < n - 1 -> nth j (m_cols m2) 0%Z = nth j (m_cols m) 0%Z) by (intros j Hj; eapply sp_nth; eauto).
  assert (Nl : nth (n - 1) (m_cols m2) 0%Z = (nth (n - 2) (m_cols m) 0 + g)%Z) by (eapply sp_nth_last; eauto).
  assert (Pt : prodf (n - 1) 1 (fun j => if S j <? n then sumf 0 (n - 1 - j) (fun i => C i (S j)) / sumf 0 (n - 1 - j) (fun i => C i j) else tail)%Qc = tail).
  { rewrite prodf_Sl, prodf_0. replace (S (n - 1) <? n) with false by (symmetry; apply Nat.ltb_ge; lia). ring. }
  unfold hh, show_last. cbv zeta. cbn [s_maturity s_origin s_cldf s_emergence s_latest s_ultimate s_reserve].
  rewrite Nat.sub_0_r, Nl, Z.eqb_refl, Pt. cbn [s_ultimate s_cldf s_emergence]. split; [reflexivity|]. split; [|split].
  - intro Ft. apply Iff in Ft. rewrite Ft, Z.eqb_refl. reflexivity.
  - intro Ft. destruct (Z.eqb_spec (nth (n - 2) (m_cols m) 0 + g)%Z (nth (n - 1) (m_cols m) 0%Z)) as [Q|Q]; [tauto|auto].
  - intros row' H. apply in_map_iff in H as (i & <- & Hi). apply in_seq in Hi.
    destruct (Z.eqb_spec (nth (n - 1 - i) (m_cols m2) 0%Z) (nth (n - 2) (m_cols m) 0 + g)%Z) as [Q|Q]; [|discriminate].
    rewrite N in Q by lia. exfalso. destruct (sp_below m n C g R Hn G (n - 1 - i) ltac:(lia)). lia.
Qed.
