(** Proof of C77, bootstrap: the triangles boot_cl accepts. *)

From Coq Require Import String QArith Qcanon ZArith List Bool Lia Sorting.Sorted Permutation.
From Verif Require Import Val Frame Triangle A2A Base Mack Boot ListLib QcLib Spec FillFacts TotriFacts CumFacts ConvFacts AvgFacts TriClaims4 RegFacts
  BaseClaims AvgClaims2 StateBuilt ZeroClaims SpecAccept AcceptClaims.
Import ListNotations.
Open Scope string_scope.
Open Scope list_scope.
Open Scope nat_scope.

Section T.
  Variables (m : lmat) (os ds : list Z) (f : Z -> Z -> val).
  Hypothesis So : increasing os.
  Hypothesis Sd : increasing ds.
  Hypothesis No : os <> [].
  Hypothesis Hh : holds m os ds f.
  Hypothesis Gf : gap_free os ds f.
  Hypothesis Ff : finite_cells os ds f.
  Hypothesis Cv : covered os ds f.
  Hypothesis Pf : positive_first os ds f.
  Let t := mkTri m "origin" "dev" "value".

  Lemma fit_ok l : exists fc, tri_fit_cum m l = Ok fc.
  Proof.
    unfold tri_fit_cum. destruct (mapM_total (fun i => fit_row l (mrow m i)) (seq 0 (nrows m))) as (rows & ->); [|cbn [bind]; eauto].
    intros i Hi. apply in_seq in Hi. unfold fit_row.
    assert (S1 := first_nan_spec (mrow m i)). cbv zeta in S1.
    destruct (first_nan (mrow m i)) as [[|k]|]; eauto. exfalso.
    destruct Hh as (Ei & Ec & _ & _ & Hc). unfold nrows in Hi. rewrite Ei in Hi.
    destruct (proj1 Cv (nth i os 0%Z) ltac:(apply nth_In; lia)) as (d & Hd & Nd).
    destruct ds as [|d0 ds'] eqn:Ed; [contradiction|].
    assert (Lr : length (mrow m i) = length (d0 :: ds')) by (unfold mrow; rewrite map_length, seq_length; unfold ncols; rewrite Ec; auto).
    assert (Z : nth 0 (mrow m i) NaN = NaN) by (apply S1; rewrite Lr; simpl; lia).
    assert (Z2 : f (nth i os 0%Z) d0 = NaN).
    { rewrite <- Z. unfold mrow. rewrite nth_map_seq by (unfold ncols; rewrite Ec; simpl; lia).
      symmetry. apply (Hc i 0); simpl; lia. }
    clear Z. rename Z2 into Z.
    destruct Hd as [<-|Hd]; [auto|]. revert Z.
    apply (Gf (nth i os 0%Z) d0 d); auto.
    - apply nth_In. lia.
    - left. auto.
    - right. auto.
    - inversion Sd as [|? ? _ F]; subst. rewrite Forall_forall in F. apply F. auto.
  Qed.

  Lemma boot_ok gm rt cl rl ind avgs sims rng : a2a_avgs gm m ind = Ok avgs -> In "all-weighted" (map fst avgs) ->
    2 < length ds -> length (m_cols (a2a m)) = length ds - 1 ->
    exists b, boot_cl gm rt t cl rl ind sims true rng = Ok b /\
      (o_dist b <> [] -> boot_cl gm rt t cl rl ind sims false rng = Ok b) /\
      (o_dist b = [] -> 0 < sims -> boot_cl gm rt t cl rl ind sims false rng = Err ValueError).
  Proof.
    intros A U P La.
    destruct (sel_ok m os ds f Sd Hh gm ind avgs (SelLabel "all-weighted") (Fin 1%Qc) A ltac:(lia) La (conj U P)) as (sel' & ldfs & E & _).
    unfold select_ldfs in E. assert (E1 : ldfs_of_label gm m ind "all-weighted" (Fin 1%Qc) = Ok ldfs) by congruence.
    destruct (lbo m os ds f "value" So Sd Hh (proj1 Cv)) as (lb & E2 & _).
    destruct (fit_ok (map snd ldfs)) as (fc & E3).
    destruct (to_incr_holds os ds So Sd m f No Hh Gf Ff Cv Pf "origin" "dev" "value") as (mi & E4 & _).
    unfold boot_cl, t. cbn [t_mat t_v]. rewrite E1. cbn [bind]. rewrite E2. cbn [bind]. rewrite E3. cbn [bind].
    unfold resid_us. rewrite E4. cbn [bind t_mat]. change (String.eqb "value" "value") with true. cbn [negb andb].
    eexists. split; [reflexivity|]. cbn [o_dist]. split.
    - intro N. destruct (sampling_dist _) as [|x l]; [congruence|]. cbn [length Nat.eqb]. rewrite andb_false_r. reflexivity.
    - intros -> Hs. cbn [length Nat.eqb]. destruct (Nat.ltb_spec 0 sims); [|lia]. reflexivity.
  Qed.

  Lemma boot_short gm rt cl rl ind avgs sims par rng : a2a_avgs gm m ind = Ok avgs -> In "all-weighted" (map fst avgs) ->
    0 < length ds <= 2 -> length (m_cols (a2a m)) = length ds - 1 ->
    boot_cl gm rt t cl rl ind sims par rng = Err IndexError.
  Proof.
    intros A U P La. unfold boot_cl, t. cbn [t_mat]. unfold ldfs_of_label. rewrite A. cbn [bind].
    destruct (find _ avgs) as [row|] eqn:Q.
    - assert (I : forall l : list Z, length l <= 1 -> increment l = Err IndexError) by (intros [|a [|b l]]; simpl; try lia; auto).
      rewrite I by (rewrite La; lia). reflexivity.
    - exfalso. apply in_map_iff in U as (p & E & Hp). apply (find_none _ _ Q) in Hp. rewrite E, String.eqb_refl in Hp. discriminate.
  Qed.
End T.
