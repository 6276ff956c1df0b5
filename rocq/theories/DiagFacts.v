(** Spearman coefficients of regular run-off triangles. *)

From Coq Require Import String QArith Qcanon ZArith List Bool Lia Sorting.Sorted.
From Verif Require Import Val Frame Triangle A2A Base Mack Diag QcLib ListLib Spec Spec2 FillFacts TriClaims4 RegFacts
  MackFacts SpearFacts.
Import ListNotations.
Open Scope list_scope.
Open Scope nat_scope.

(** Column with values in the first [k] of [N] rows. *)
Definition pcol (N k : nat) (x : nat -> Qc) : list val := map (fun i => if i <? k then Fin (x i) else NaN) (seq 0 N).

Lemma count_pcol (p : val -> bool) N k x : k <= N -> p NaN = false ->
  count_if p (pcol N k x) = length (filter (fun j => p (Fin (x j))) (seq 0 k)).
Proof.
  intros L H. unfold count_if, pcol. replace N with (k + (N - k)) by lia. rewrite seq_app, map_app, filter_app, app_length.
  rewrite (map_ext_in _ (fun i => Fin (x i)) (seq 0 k)).
  2:{ intros i Hi. apply in_seq in Hi. apply ltb_if. lia. }
  rewrite (map_ext_in _ (fun _ => NaN) (seq (0 + k) (N - k))).
  2:{ intros i Hi. apply in_seq in Hi. apply nltb_if. lia. }
  assert (E : forall l : list nat, filter p (map (fun _ => NaN) l) = []).
  { induction l; simpl; auto. rewrite H. auto. }
  rewrite E. simpl. rewrite Nat.add_0_r. clear E.
  induction (seq 0 k) as [|a l IH]; simpl; auto. destruct (p (Fin (x a))); simpl; auto.
Qed.
Lemma rank_pcol N k x : k <= N -> rank (pcol N k x) = pcol N k (avg_rank x k).
Proof.
  intro L. unfold rank. transitivity (map (rank1 (pcol N k x)) (map (fun i => if i <? k then Fin (x i) else NaN) (seq 0 N))); auto.
  rewrite map_map. unfold pcol at 2. apply map_ext_in. intros i Hi.
  destruct (Nat.ltb_spec i k); [|reflexivity]. unfold rank1. cbn [isnan].
  rewrite !count_pcol by auto. reflexivity.
Qed.

Lemma removelast_tl {A} (r s : nat -> A) c : forall a,
  removelast (tl (flat_map (fun i => [r i; s i]) (seq a (S c)))) = flat_map (fun i => [s i; r (S i)]) (seq a c).
Proof.
  induction c as [|c IH]; intro a; [reflexivity|].
  change (seq a (S (S c))) with (a :: seq (S a) (S c)). cbn [flat_map app tl].
  specialize (IH (S a)). change (seq a (S c)) with (a :: seq (S a) c). cbn [flat_map app].
  rewrite <- IH. change (seq (S a) (S c)) with (S a :: seq (S (S a)) c). cbn [flat_map app tl]. reflexivity.
Qed.
Lemma coeffs_of_flat n (s r : nat -> rank_col) l :
  coeffs_of n (flat_map (fun i => [s i; r i]) l) = map (fun i => coeff_of n (s i) (r i)) l.
Proof. induction l; simpl; auto. f_equal. auto. Qed.

Section D.
  Variables (os ds : list Z) (N : nat) (F : nat -> nat -> Qc).
  Hypothesis So : zsorted os.
  Hypothesis Sd : zsorted ds.
  Hypothesis Lo : length os = N.
  Hypothesis Ld : length ds = N.
  Let a := rmat os ds N F.
  Let o_ i := nth i os 0%Z.
  Let d_ j := nth j ds 0%Z.

  Definition lvi_of : list (Z * Z) := map (fun j => (d_ j, o_ (N - 1 - j))) (seq 0 N).

  Lemma a_mcol j : j < N -> mcol a j = pcol N (N - j) (fun i => F i j).
  Proof.
    intro Hj. unfold mcol, a, rmat, nrows. cbn [m_idx m_cells]. rewrite Lo. apply map_seq_ext. intros i Hi.
    rewrite cell_mk by lia. unfold rc. destruct (Nat.ltb_spec (i + j) N), (Nat.ltb_spec i (N - j)); auto; lia.
  Qed.
  Lemma a_last j : j < N -> last_valid (mcol a j) = Some (N - 1 - j).
  Proof.
    intro Hj. rewrite a_mcol by auto. apply last_valid_map_seq. repeat split.
    - lia.
    - rewrite ltb_if by lia. discriminate.
    - intros i Hi. apply nltb_if. lia.
  Qed.
  Lemma a_lvi : mapM (fun j => match last_valid (mcol a j) with
                 | None => Err KeyError
                 | Some i => Ok (nth j (m_cols a) 0%Z, nth i (m_idx a) 0%Z)
                 end) (seq 0 (ncols a)) = Ok lvi_of.
  Proof.
    unfold ncols, a, rmat. cbn [m_cols]. rewrite Ld. apply mapM_ok. intros j Hj. apply in_seq in Hj.
    change (mkMat os ds (mk N N (rc N F))) with a. rewrite a_last by lia. reflexivity.
  Qed.

  Definition rcol (i : nat) : rank_col := (false, S i, pcol N (N - i) (avg_rank (fun r => F r i) (N - i))).
  Definition scol (i : nat) : rank_col := (true, S (S i), pcol N (N - 1 - i) (avg_rank (fun r => F r i) (N - 1 - i))).

  Lemma pcol_cut j : j < N ->
    map (fun q => if (fst q <? o_ (N - 1 - j))%Z then snd q else NaN) (combine os (pcol N (N - j) (fun i => F i j)))
    = pcol N (N - 1 - j) (fun i => F i j).
  Proof.
    intro Hj. unfold pcol. rewrite <- (map_nth_seq os) at 1. rewrite Lo. rewrite combine_map_lr, map_map. apply map_seq_ext.
    intros i Hi. cbn [fst snd]. fold (o_ i).
    destruct (Nat.ltb_spec i (N - 1 - j)) as [H|H].
    - assert (Q : (o_ i < o_ (N - 1 - j))%Z) by (apply zsorted_nth; auto; lia).
      apply Z.ltb_lt in Q. rewrite Q. apply ltb_if. lia.
    - assert (Q : (o_ (N - 1 - j) <= o_ i)%Z).
      { destruct (Nat.eq_dec i (N - 1 - j)) as [->|]; [lia|]. apply Z.lt_le_incl. apply zsorted_nth; auto; lia. }
      apply Z.ltb_ge in Q. rewrite Q. auto.
  Qed.

  Lemma a_rank_list : rank_list a lvi_of = flat_map (fun i => [rcol i; scol i]) (seq 0 (N - 1)).
  Proof.
    unfold rank_list. unfold lvi_of at 1 2. rewrite map_length, seq_length.
    assert (E : combine (seq 0 (N - 1)) (map (fun j => (d_ j, o_ (N - 1 - j))) (seq 0 N))
                = map (fun j => (j, (d_ j, o_ (N - 1 - j)))) (seq 0 (N - 1))).
    { destruct N as [|N']; [reflexivity|]. replace (S N' - 1) with N' by lia. rewrite seq_S, map_app.
      rewrite combine_trunc by (rewrite map_length, !seq_length; auto).
      rewrite <- (map_id (seq 0 N')) at 1. rewrite combine_map_lr. reflexivity. }
    rewrite E. rewrite flat_map_concat_map, map_map, <- flat_map_concat_map.
    rewrite !flat_map_concat_map. f_equal. apply map_seq_ext. intros j Hj. cbn [fst snd].
    change (m_cols a) with ds. change (m_idx a) with os. unfold d_. rewrite zfind_nth by (auto using zsorted_nodup; lia).
    rewrite a_mcol by lia. rewrite rank_pcol by lia. rewrite (pcol_cut j) by lia. rewrite rank_pcol by lia.
    reflexivity.
  Qed.
End D.

Section S.
  Variables (m : lmat) (n : nat) (C : nat -> nat -> Qc).
  Hypothesis R : regular m n C.
  Hypothesis P : positive n C.
  Hypothesis Hn : 3 < n.

  Definition lnk (i j : nat) : Qc := (C i (S j) / C i j)%Qc.

  Lemma s_a2a : a2a m = rmat (firstn (n - 1) (m_idx m)) (firstn (n - 1) (m_cols m)) (n - 1) lnk /\
    zsorted (firstn (n - 1) (m_idx m)) /\ zsorted (firstn (n - 1) (m_cols m)) /\
    length (firstn (n - 1) (m_idx m)) = n - 1 /\ length (firstn (n - 1) (m_cols m)) = n - 1.
  Proof.
    destruct (regular_rmat m n C R) as (E & So & Sd & Lo & Ld). split.
    - rewrite E at 1. rewrite r_a2a by (auto; lia). reflexivity.
    - repeat split; auto using zsorted_firstn; rewrite firstn_length; lia.
  Qed.

  Definition lvi_m := lvi_of (firstn (n - 1) (m_idx m)) (firstn (n - 1) (m_cols m)) (n - 1).
  Lemma s_lvi : a2a_lvi m = Ok lvi_m.
  Proof.
    destruct s_a2a as (E & So & Sd & Lo & Ld). unfold a2a_lvi. rewrite E. apply a_lvi; auto.
  Qed.

  Definition Tk (k : nat) : Qc := spear (fun i => lnk i (k - 1)) (fun i => lnk i (k - 2)) (n - k).

  Lemma s_coeff i : i < n - 3 ->
    coeff_of n (scol (n - 1) lnk i) (rcol (n - 1) lnk (S i))
    = (Z.of_nat (i + 2), Z.of_nat (n - (i + 2) - 1), Fin (Tk (i + 2))).
  Proof.
    intro Hi. unfold coeff_of, scol, rcol. cbn [fst snd].
    replace (S (S i)) with (i + 2) by lia. f_equal; [f_equal; lia|].
    set (k := i + 2). set (den := (qn (n - k) * qn (n - k) * qn (n - k) - qn (n - k))%Qc).
    assert (Dp : (0 < den)%Qc) by (apply den_pos; lia).
    assert (Ed : vz (Z.of_nat (n - k) ^ 3 - Z.of_nat n + Z.of_nat k) = Fin den).
    { unfold vz, den, qn. f_equal. replace (Z.of_nat n) with (Z.of_nat (n - k) + Z.of_nat k)%Z by lia.
      rewrite <- !qz_mul. unfold Qcminus. rewrite <- qz_opp, <- qz_add. f_equal. ring. }
    rewrite Ed. unfold pcol. rewrite combine_map_lr, map_map. cbn [fst snd].
    replace (n - 1 - S i) with (n - k) by lia. replace (n - 1 - 1 - i) with (n - k) by lia.
    rewrite (skipsum_tri (n - 1) (n - k) _
       (fun r => (1 / den) * ((avg_rank (fun i => lnk i (k - 1)) (n - k) r - avg_rank (fun i => lnk i (k - 2)) (n - k) r)
                   * (avg_rank (fun i => lnk i (k - 1)) (n - k) r - avg_rank (fun i => lnk i (k - 2)) (n - k) r)))%Qc).
    - rewrite sumf_mulc. unfold Tk, spear. fold den. cbn [vmul vsub]. 
      change (vz 6) with (Fin (qz 6)). cbn [vmul]. rewrite vsub_fin. f_equal.
      unfold ssd. field. apply qc_pos_neq; auto.
    - lia.
    - intros r Hr. left. rewrite !ltb_if by lia. rewrite vsub_fin, vpow_fin, vdiv_fin by (apply qc_pos_neq; auto). f_equal.
      rewrite qpow2. replace (k - 1) with (S i) by lia. replace (k - 2) with i by lia. field. apply qc_pos_neq; auto.
    - intros r Hr. rewrite !nltb_if by lia. reflexivity.
  Qed.

  Lemma s_coeffs : spearman_coeffs m = Ok (map (fun k => (Z.of_nat k, Z.of_nat (n - k - 1), Fin (Tk k))) (seq 2 (n - 3))).
  Proof.
    destruct s_a2a as (E & So & Sd & Lo & Ld). unfold spearman_coeffs, ranked_a2a. rewrite s_lvi. cbn [bind].
    rewrite E. unfold lvi_m. rewrite a_rank_list by auto.
    replace (n - 1 - 1) with (S (n - 3)) by lia. rewrite removelast_tl.
    destruct (flat_map _ (seq 0 (n - 3))) as [|x l] eqn:Q.
    - exfalso. replace (n - 3) with (S (n - 4)) in Q by lia. discriminate.
    - rewrite <- Q. cbn [bind]. f_equal. destruct (regular_rmat m n C R) as (_ & _ & _ & _ & Ldm).
      unfold ncols. rewrite Ldm.
      rewrite (coeffs_of_flat n (scol (n - 1) lnk) (fun i => rcol (n - 1) lnk (S i))).
      replace (seq 2 (n - 3)) with (map (fun i => i + 2) (seq 0 (n - 3))).
      2:{ rewrite <- !seq_shift, map_map. apply map_ext. intro. lia. }
      rewrite map_map. apply map_seq_ext. intros i Hi. apply s_coeff. lia.
  Qed.

  Definition wsum : Qc := sumf 2 (n - 3) (fun k => qn (n - k - 1)).
  Lemma wsum_pos : (0 < wsum)%Qc.
  Proof. apply sumf_pos; [lia|]. intros. apply qn_pos. lia. Qed.
  Lemma s_total : spearman_total m = Ok (Fin (sumf 2 (n - 3) (fun k => qn (n - k - 1) * Tk k) / wsum)%Qc).
  Proof.
    unfold spearman_total. rewrite s_coeffs. cbn [bind]. f_equal. rewrite !map_map. cbn [fst snd].
    rewrite (skipsum_gen _ _ (fun k => qn (n - k - 1) * Tk k)%Qc) by (intros; left; reflexivity).
    rewrite (skipsum_gen _ _ (fun k => qn (n - k - 1))%Qc) by (intros; left; reflexivity).
    apply vdiv_fin. apply qc_pos_neq, wsum_pos.
  Qed.
  Lemma total_bounds : (- (1) <= sumf 2 (n - 3) (fun k => qn (n - k - 1) * Tk k) / wsum /\
                        sumf 2 (n - 3) (fun k => qn (n - k - 1) * Tk k) / wsum <= 1)%Qc.
  Proof.
    split.
    - apply qc_le_div; [apply wsum_pos|]. unfold wsum. rewrite <- sumf_mulc. apply sumf_le. intros k Hk.
      destruct (spear_bounds (fun i => lnk i (k - 1)) (fun i => lnk i (k - 2)) (n - k)) as [A _]; [lia|]. fold (Tk k) in A.
      assert (B := qn_nonneg (n - k - 1)). 
      assert (D : (0 <= qn (n - k - 1) * (Tk k + 1))%Qc) by (apply qc_mul_nonneg; auto; qlra).
      assert (Q : (qn (n - k - 1) * Tk k = - (1) * qn (n - k - 1) + qn (n - k - 1) * (Tk k + 1))%Qc) by ring.
      rewrite Q. set (z := (qn (n - k - 1) * (Tk k + 1))%Qc) in *. qlra.
    - apply qc_div_le; [apply wsum_pos|]. unfold wsum. rewrite <- sumf_mulc. apply sumf_le. intros k Hk.
      destruct (spear_bounds (fun i => lnk i (k - 1)) (fun i => lnk i (k - 2)) (n - k)) as [_ A]; [lia|]. fold (Tk k) in A.
      assert (B := qn_nonneg (n - k - 1)).
      assert (D : (0 <= qn (n - k - 1) * (1 - Tk k))%Qc) by (apply qc_mul_nonneg; auto; qlra).
      assert (Q : (qn (n - k - 1) * Tk k = 1 * qn (n - k - 1) - qn (n - k - 1) * (1 - Tk k))%Qc) by ring.
      rewrite Q. set (z := (qn (n - k - 1) * (1 - Tk k))%Qc) in *. qlra.
  Qed.
End S.

Lemma c44 : forall m n C, regular m n C -> positive n C -> 3 < n ->
  exists T : nat -> Qc,
    spearman_coeffs m = Ok (map (fun k => (Z.of_nat k, Z.of_nat (n - k - 1), Fin (T k))) (seq 2 (n - 3))) /\
    (forall k, 2 <= k <= n - 2 ->
       let F i j := (C i (S j) / C i j)%Qc in
       let x i := F i (k - 1) in
       let y i := F i (k - 2) in
       let N := n - k in
       T k = (1 - qz 6 * (sumf 0 N (fun i => (avg_rank x N i - avg_rank y N i) * (avg_rank x N i - avg_rank y N i))
                          / (qn N * qn N * qn N - qn N)))%Qc /\
       (- (1) <= T k)%Qc /\ (T k <= 1)%Qc /\
       ((forall i j, i < N -> j < N -> ((x i < x j)%Qc <-> (y i < y j)%Qc)) -> T k = 1%Qc) /\
       ((forall i j, i < N -> j < N -> i <> j -> x i <> x j) ->
        (forall i j, i < N -> j < N -> ((x i < x j)%Qc <-> (y j < y i)%Qc)) -> T k = (- (1))%Qc)) /\
    exists q, spearman_total m = Ok (Fin q) /\
      q = (sumf 2 (n - 3) (fun k => qn (n - k - 1) * T k) / sumf 2 (n - 3) (fun k => qn (n - k - 1)))%Qc /\
      (- (1) <= q)%Qc /\ (q <= 1)%Qc.
Proof.
  intros m n C R P Hn. exists (Tk n C). split; [apply s_coeffs; auto|]. split.
  - intros k Hk. cbv zeta. split; [reflexivity|]. assert (K : 2 <= n - k) by lia.
    destruct (spear_bounds (fun i => lnk C i (k - 1)) (fun i => lnk C i (k - 2)) (n - k) K) as [A B].
    split; [exact A|]. split; [exact B|]. split.
    + intro H. apply spear_agree. exact H.
    + intros D H. apply spear_opposite; [exact K| |exact H].
      intros i j Hi Hj Hij. specialize (D i j Hi Hj Hij). fold (lnk C i (k - 1)) in D. fold (lnk C j (k - 1)) in D.
      destruct (qc_dec_sign (lnk C i (k - 1)) (lnk C j (k - 1))) as [|[|]]; auto. contradiction.
  - exists (sumf 2 (n - 3) (fun k => qn (n - k - 1) * Tk n C k) / wsum n)%Qc. split; [apply s_total; auto|].
    split; [exact eq_refl|]. apply total_bounds; auto.
Qed.
