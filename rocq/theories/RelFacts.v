(** The estimates on related triangles: what the average factors and base_cl depend on. *)

From Coq Require Import String QArith Qcanon ZArith List Bool Lia Permutation Sorting.Sorted.
From Verif Require Import Val Frame Triangle A2A Base ListLib QcLib Spec CumFacts TriClaims4 RegFacts AvgFacts AvgClaims AvgClaims2 BaseClaims.
Import ListNotations.
Open Scope list_scope.
Open Scope nat_scope.

Lemma mapM_inv {A B} (f : A -> res B) l r : mapM f l = Ok r -> forall y, In y r -> exists x, In x l /\ f x = Ok y.
Proof.
  revert r. induction l as [|a l IH]; simpl; intros r H y Hy; [injection H as <-; contradiction|].
  destruct (f a) eqn:E; cbn [bind] in H; [|discriminate]. destruct (mapM f l) eqn:E'; cbn [bind] in H; [|discriminate].
  injection H as <-. destruct Hy as [<-|Hy]; [exists a; auto|]. destruct (IH _ eq_refl y Hy) as (x & Hx & Q). eauto.
Qed.

(** A selected row of averages, as factors. *)
Lemma label_ldfs gm m n C ind s tail avgs row : regular m n C -> positive n C -> 2 < n -> tail_fits (m_cols m) ->
  a2a_avgs gm m ind = Ok avgs -> find (fun p => String.eqb (fst p) s) avgs = Some row ->
  ldfs_of_label gm m ind s tail
  = Ok (map (fun j => (nth j (m_cols m) 0%Z, if S j <? n then nth j (snd row) NaN else tail)) (seq 0 n)).
Proof.
  intros R P Hn Ev A F. apply regular_rmat in R as (E & So & Sd & Lo & Ld).
  unfold ldfs_of_label. rewrite A. cbn [bind]. rewrite F.
  assert (Ea : a2a m = rmat (firstn (n - 1) (m_idx m)) (firstn (n - 1) (m_cols m)) (n - 1) (link C)).
  { rewrite E at 1. apply r_a2a; auto; lia. }
  assert (Lr : length (snd row) = n - 1).
  { apply find_some in F as [F _]. unfold a2a_avgs in A.
    destruct (mapM_inv _ _ _ A row F) as ([a k] & _ & Q). cbn [fst snd] in Q.
    destruct (mapM (one_avg gm m ind a k) _) as [l|] eqn:M; [|discriminate]. cbn [bind] in Q. injection Q as <-.
    cbn [snd]. rewrite (mapM_length _ _ _ M), seq_length, Ea. unfold ncols, rmat. cbn [m_cols]. rewrite firstn_length. lia. }
  rewrite Ea. cbn [rmat m_cols]. set (ds := m_cols m) in *.
  rewrite (increment_ev ds n) by auto. cbn [bind]. rewrite (zmax_firstn ds n) by (auto; lia).
  replace (nth (n - 2) ds 0 + (nth (n - 1) ds 0 - nth (n - 2) ds 0))%Z with (nth (n - 1) ds 0%Z) by lia.
  rewrite <- firstn_map_nth by lia.
  rewrite <- (list_map_nth (snd row) NaN) at 1. rewrite Lr. rewrite combine_map_lr.
  rewrite sset_append.
  - f_equal.
    assert (Q : map (fun i => (nth i ds 0%Z, nth i (snd row) NaN)) (seq 0 (n - 1)) ++ [(nth (n - 1) ds 0%Z, tail)]
              = map (fun j => (nth j ds 0%Z, if S j <? n then nth j (snd row) NaN else tail)) (seq 0 n)).
    { assert (Er : seq 0 n = seq 0 (n - 1) ++ [n - 1])
        by (replace n with (S (n - 1)) at 1 by lia; rewrite seq_S; auto).
      rewrite Er, map_app. cbn [map]. f_equal.
      - apply map_seq_ext. intros i Hi. rewrite ltb_if by lia. auto.
      - rewrite nltb_if by lia. auto. }
    etransitivity; [exact (f_equal zvsort Q)|]. apply zsorted_zvsort. rewrite map_map. cbn.
    rewrite <- Ld, map_nth_seq. auto.
  - rewrite map_map. cbn. intro Q. apply in_map_iff in Q as (i & Eq & Hi). apply in_seq in Hi.
    assert (D := zsorted_nth ds i (n - 1) 0%Z Sd). rewrite Ld in D. specialize (D ltac:(lia)). lia.
Qed.

(** base_cl's result from the factors. *)
Definition base_pure (os ds : list Z) (n : nat) (C : nat -> nat -> Qc) (f : nat -> Qc) (tail : val) : cl_result :=
  mkRes (map (fun i => let k := n - 1 - i in let c := prodf k (S i) f in
           mkRow (nth i os 0%Z) (nth k ds 0%Z) (Fin c) (vdiv (Fin 1%Qc) (Fin c))
             (Fin (C i k)) (Fin (C i k * c)%Qc) (Fin (C i k * c - C i k)%Qc)) (seq 0 n))
    (Fin (sumf 0 n (fun i => C i (n - 1 - i)%nat)),
     Fin (sumf 0 n (fun i => C i (n - 1 - i)%nat * prodf (n - 1 - i) (S i) f)%Qc),
     Fin (sumf 0 n (fun i => C i (n - 1 - i)%nat * prodf (n - 1 - i) (S i) f - C i (n - 1 - i)%nat)%Qc))
    (map (fun j => (nth j ds 0%Z, Fin (f j))) (seq 0 n))
    (mk n n (fun i j => Fin (sq n C f i j)),
     map (fun i => Fin (C i (n - 1 - i)%nat * prodf (n - 1 - i) (S i) f)%Qc) (seq 0 n))
    tail.

Lemma base_pure_intro gm m n C v cl ind sel tail sel' (f : nat -> Qc) : regular m n C -> 0 < n -> clvi m = Ok cl ->
  select_ldfs gm m ind sel tail = (sel', Ok (map (fun j => (nth j (m_cols m) 0%Z, Fin (f j))) (seq 0 n))) ->
  base_cl gm (mkTri m "origin" "dev" v) cl ind sel tail = (sel', Ok (base_pure (m_idx m) (m_cols m) n C f tail)).
Proof.
  intros R Hn D S1. apply regular_rmat in R as (E & So & Sd & Lo & Ld).
  rewrite E, (r_clvi _ _ n C) in D by (auto; lia). injection D as <-.
  assert (Q := r_chain_ladder (m_idx m) (m_cols m) n C So Sd Lo Ld ltac:(lia) f v tail). unfold fser in Q. rewrite <- E in Q.
  eapply base_cl_intro; [exact S1|]. rewrite Q. f_equal. unfold base_pure, rrow, cdf.
  f_equal.
  - apply map_seq_ext. intros i Hi. cbv zeta. replace (n - (n - 1 - i)) with (S i) by lia. reflexivity.
  - f_equal; [f_equal|]; f_equal; apply sumf_ext; intros i Hi; replace (n - (n - 1 - i)) with (S i) by lia; reflexivity.
  - f_equal. apply map_seq_ext. intros i Hi. replace (n - (n - 1 - i)) with (S i) by lia. reflexivity.
Qed.
Lemma base_pure_inv gm m n C v cl ind sel tail sel' r (f : nat -> Qc) : regular m n C -> 0 < n -> clvi m = Ok cl ->
  base_cl gm (mkTri m "origin" "dev" v) cl ind sel tail = (sel', Ok r) ->
  c_ldfs r = map (fun j => (nth j (m_cols m) 0%Z, Fin (f j))) (seq 0 n) ->
  r = base_pure (m_idx m) (m_cols m) n C f tail /\
  select_ldfs gm m ind sel tail = (sel', Ok (map (fun j => (nth j (m_cols m) 0%Z, Fin (f j))) (seq 0 n))).
Proof.
  intros R Hn D B L. assert (B' := B). apply base_cl_inv in B' as (S1 & _). cbn [t_mat] in S1. rewrite L in S1. split; auto.
  rewrite (base_pure_intro gm m n C v cl ind sel tail sel' f R Hn D S1) in B. injection B as B. auto.
Qed.

(** ** Two triangles with the same link ratios and the same weighted averages *)
Section Pair.
  Variables (m m' : lmat) (n : nat) (C C' : nat -> nat -> Qc).
  Hypothesis R : regular m n C.
  Hypothesis R' : regular m' n C'.
  Hypothesis P : positive n C.
  Hypothesis P' : positive n C'.
  Hypothesis Hn : 1 < n.
  Hypothesis Hl : forall i j, i + S j < n -> (C' i (S j) / C' i j = C i (S j) / C i j)%Qc.
  Hypothesis Hw : forall k j, j < n - 1 ->
    (qsum (map (fun i => C' i (S j)) (rows_of k (n - 1 - j))) / qsum (map (fun i => C' i j) (rows_of k (n - 1 - j)))
     = qsum (map (fun i => C i (S j)) (rows_of k (n - 1 - j))) / qsum (map (fun i => C i j) (rows_of k (n - 1 - j))))%Qc.

  Lemma pair_a2a : nrows (a2a m') = n - 1 /\ nrows (a2a m) = n - 1 /\ ncols (a2a m') = n - 1 /\ ncols (a2a m) = n - 1 /\
    m_cells (a2a m') = m_cells (a2a m).
  Proof.
    apply regular_rmat in R as (E & So & Sd & Lo & Ld). apply regular_rmat in R' as (E' & So' & Sd' & Lo' & Ld').
    rewrite E, E'. rewrite (r_a2a _ _ n C) by (auto; lia). rewrite (r_a2a _ _ n C') by (auto; lia).
    unfold nrows, ncols, rmat. cbn [m_idx m_cols m_cells]. rewrite !firstn_length, Lo, Ld, Lo', Ld'.
    repeat (split; [lia|]).
    unfold mk. apply map_seq_ext. intros i Hi. apply map_seq_ext. intros j Hj.
    unfold rc. destruct (Nat.ltb_spec (i + j) (n - 1)); auto. f_equal. unfold link. apply Hl. lia.
  Qed.
  Lemma pair_weighted k j : j < n - 1 -> weighted_avg m' k j = weighted_avg m k j.
  Proof.
    intro Hj.
    apply regular_rmat in R as (E & So & Sd & Lo & Ld). apply regular_rmat in R' as (E' & So' & Sd' & Lo' & Ld').
    rewrite E, E'. rewrite (weighted_eq _ _ n C) by (auto; lia). rewrite (weighted_eq _ _ n C') by (auto; lia).
    rewrite Hw by auto. auto.
  Qed.
  Lemma pair_avgs gm ind : a2a_avgs gm m' ind = a2a_avgs gm m ind.
  Proof.
    destruct pair_a2a as (A1 & A2 & A3 & A4 & A5).
    unfold a2a_avgs. rewrite A1, A2, A3, A4. apply mapM_ext. intros [a k] _. cbn [fst snd].
    rewrite (mapM_ext (one_avg gm m' ind a k) (one_avg gm m ind a k)); auto.
    intros j Hj. apply in_seq in Hj.
    assert (Ec : mcol (a2a_adj m' ind) j = mcol (a2a_adj m ind) j).
    { unfold mcol, a2a_adj. cbn [m_cells].
      match goal with |- map _ (seq 0 (nrows (mkMat ?a ?b ?c))) = map _ (seq 0 (nrows (mkMat ?a' ?b' ?c'))) =>
        change (nrows (mkMat a b c)) with (nrows (a2a m')); change (nrows (mkMat a' b' c')) with (nrows (a2a m)) end.
      rewrite A1, A2, A3, A4, A5. auto. }
    unfold one_avg. rewrite Ec. destruct a; auto. apply pair_weighted. lia.
  Qed.

  (** Labels and factor sequences select the same factors. *)
  Lemma pair_select gm ind sel tail sel' fs : 2 < n -> tail_fits (m_cols m) -> tail_fits (m_cols m') ->
    (forall s, sel <> SelSeries s) ->
    select_ldfs gm m ind sel tail = (sel', Ok (map (fun j => (nth j (m_cols m) 0%Z, fs j)) (seq 0 n))) ->
    select_ldfs gm m' ind sel tail = (sel', Ok (map (fun j => (nth j (m_cols m') 0%Z, fs j)) (seq 0 n))).
  Proof.
    intros Hn2 Ev Ev' Ns. destruct sel as [s|l|s]; [| |exfalso; exact (Ns s eq_refl)].
    - cbn [select_ldfs]. intro Q. injection Q as <- Q. f_equal.
      destruct (a2a_avgs gm m ind) as [avgs|e] eqn:A; [|unfold ldfs_of_label in Q; rewrite A in Q; discriminate].
      destruct (find (fun p => String.eqb (fst p) s) avgs) as [row|] eqn:F;
        [|unfold ldfs_of_label in Q; rewrite A in Q; cbn [bind] in Q; rewrite F in Q; discriminate].
      rewrite (label_ldfs gm m n C ind s tail avgs row) in Q by auto. injection Q as Q.
      rewrite (label_ldfs gm m' n C' ind s tail avgs row) by (auto; rewrite pair_avgs; auto). f_equal.
      apply map_seq_ext. intros j Hj. f_equal.
      apply (f_equal (map snd)) in Q. rewrite !map_map in Q. cbn [snd] in Q.
      assert (Q2 := f_equal (fun z => nth j z NaN) Q). cbn beta in Q2. rewrite !nth_map_seq in Q2 by lia. cbn [plus] in Q2. exact Q2.
    - cbn [select_ldfs]. 
      apply regular_rmat in R as (E & So & Sd & Lo & Ld). apply regular_rmat in R' as (E' & So' & Sd' & Lo' & Ld').
      unfold ncols. rewrite Ld, Ld'. destruct (length (l ++ [tail]) =? n) eqn:L; [|discriminate]. apply Nat.eqb_eq in L.
      intro Q. injection Q as <- Q. do 2 f_equal.
      assert (Q2 : l ++ [tail] = map fs (seq 0 n)).
      { apply (f_equal (map snd)) in Q. rewrite !map_map in Q. cbn [snd] in Q. rewrite map_snd_combine in Q by lia. auto. }
      rewrite Q2. rewrite <- (map_nth_seq (m_cols m')) at 1. rewrite Ld'. apply combine_map_lr.
  Qed.
End Pair.
