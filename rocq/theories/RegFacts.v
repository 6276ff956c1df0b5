(** Regular run-off triangles: accessors, link ratios, chain ladder in closed form. *)

From Coq Require Import String Ascii QArith Qcanon ZArith List Bool Lia Permutation Sorting.Sorted.
From Verif Require Import Val Frame Triangle A2A Base QcLib ListLib Spec BuildFacts CumFacts FillFacts
  TotriFacts TblFacts TriClaims ConvFacts TriClaims2 TriClaims4.
Import ListNotations.
Open Scope list_scope.
Open Scope nat_scope.

(** ** Lists over [seq] *)

Lemma filter_seq_prefix (p : nat -> bool) n k : k <= n -> (forall i, i < n -> p i = (i <? k)) ->
  filter p (seq 0 n) = seq 0 k.
Proof.
  intros L H. replace n with (k + (n - k)) by lia. rewrite seq_app, filter_app.
  rewrite (filter_ext_in' _ (fun _ => true)).
  - rewrite (filter_none _ (seq (0 + k) (n - k))).
    + rewrite app_nil_r. clear. induction (seq 0 k); simpl; congruence.
    + intros i Hi. apply in_seq in Hi. rewrite H by lia. apply Nat.ltb_ge. lia.
  - intros i Hi. apply in_seq in Hi. rewrite H by lia. apply Nat.ltb_lt. lia.
Qed.
Lemma existsb_seq (p : nat -> bool) n : existsb p (seq 0 n) = true <-> exists i, i < n /\ p i = true.
Proof.
  rewrite existsb_exists. split; intros (i & A & B); exists i.
  - apply in_seq in A. split; auto; lia.
  - split; auto. apply in_seq. lia.
Qed.
Lemma rev_map_seq {A} (g : nat -> A) n : rev (map g (seq 0 n)) = map (fun i => g (n - 1 - i)) (seq 0 n).
Proof.
  assert (G : forall n a, rev (map g (seq a n)) = map (fun i => g (a + n - 1 - i)) (seq 0 n)).
  { clear n. induction n as [|n IH]; intro a; auto. rewrite seq_S, map_app, rev_app_distr. simpl.
    f_equal; [f_equal; lia|]. rewrite IH. rewrite <- seq_shift, map_map. apply map_ext. intro i. f_equal. lia. }
  rewrite G. apply map_ext. intro i. f_equal.
Qed.
Lemma map_seq_ext {A} (f g : nat -> A) a n : (forall i, a <= i < a + n -> f i = g i) ->
  map f (seq a n) = map g (seq a n).
Proof. intro H. apply map_ext_in. intros i Hi. apply in_seq in Hi. auto. Qed.
Lemma firstn_map_nth (l : list Z) k : k <= length l -> map (fun i => nth i l 0%Z) (seq 0 k) = firstn k l.
Proof.
  revert k. induction l as [|x l IH]; intros k L; simpl in L.
  - replace k with 0 by lia. auto.
  - destruct k; auto. simpl. f_equal. rewrite <- seq_shift, map_map. apply IH. lia.
Qed.
Lemma last_map_seq {A} (g : nat -> A) n d : 0 < n -> last (map g (seq 0 n)) d = g (n - 1).
Proof.
  intro H. destruct n; [lia|]. rewrite seq_S, map_app. simpl. rewrite last_last. f_equal. lia.
Qed.
Lemma map_ok_nth {A} (l : list A) d n : length l = n -> l = map (fun i => nth i l d) (seq 0 n).
Proof. intros <-. symmetry. apply list_map_nth. Qed.
Lemma ltb_if {A} a b (x y : A) : a < b -> (if a <? b then x else y) = x.
Proof. intro H. apply Nat.ltb_lt in H. rewrite H. auto. Qed.
Lemma nltb_if {A} a b (x y : A) : b <= a -> (if a <? b then x else y) = y.
Proof. intro H. apply Nat.ltb_ge in H. rewrite H. auto. Qed.

Lemma slookup_map (g : nat -> Z) (h : nat -> val) l i : NoDup (map g l) -> In i l ->
  slookup (map (fun i => (g i, h i)) l) (g i) = h i.
Proof.
  induction l as [|a l IH]; simpl; intros N H; [contradiction|]. inversion N; subst. unfold slookup. simpl.
  destruct (Z.eqb_spec (g a) (g i)) as [E|E].
  - destruct H as [->|H]; auto. exfalso. apply H2. rewrite E. apply in_map; auto.
  - destruct H as [->|H]; [congruence|]. apply IH; auto.
Qed.

Definition rc (n : nat) (C : nat -> nat -> Qc) (i j : nat) : val :=
  if i + j <? n then Fin (C i j) else NaN.
Definition rmat (os ds : list Z) (n : nat) (C : nat -> nat -> Qc) : lmat := mkMat os ds (mk n n (rc n C)).

Lemma regular_rmat m n C : regular m n C -> m = rmat (m_idx m) (m_cols m) n C /\
  zsorted (m_idx m) /\ zsorted (m_cols m) /\ length (m_idx m) = n /\ length (m_cols m) = n.
Proof.
  intros (A & B & Lo & Ld & Lc & Lr & H). repeat split; auto. destruct m as [os ds cs]. unfold rmat. simpl in *.
  f_equal. apply (wfm_ext n n); [split; auto|apply mk_wfm|].
  intros i j Hi Hj. rewrite cell_mk by auto. unfold cell. rewrite H by auto. reflexivity.
Qed.
Lemma rmat_regular os ds n C : zsorted os -> zsorted ds -> length os = n -> length ds = n ->
  regular (rmat os ds n C) n C.
Proof.
  intros A B Lo Ld. repeat split; simpl; auto.
  - apply mk_length.
  - apply mk_wfm.
  - intros i j Hi Hj. apply (cell_mk n n (rc n C) i j); auto.
Qed.

Section Reg.
  Variables (os ds : list Z) (n : nat) (C : nat -> nat -> Qc).
  Hypothesis So : zsorted os.
  Hypothesis Sd : zsorted ds.
  Hypothesis Lo : length os = n.
  Hypothesis Ld : length ds = n.
  Hypothesis Hn : 0 < n.

  Let m := rmat os ds n C.
  Let o_ i := nth i os 0%Z.
  Let d_ j := nth j ds 0%Z.

  Definition rf (o d : Z) : val :=
    match zfind o os, zfind d ds with Some i, Some j => rc n C i j | _, _ => NaN end.
  Lemma rf_nth i j : i < n -> j < n -> rf (o_ i) (d_ j) = rc n C i j.
  Proof.
    intros Hi Hj. unfold rf, o_, d_. rewrite !zfind_nth by (auto using zsorted_nodup; lia). auto.
  Qed.
  Lemma rc_iff i j : rc n C i j <> NaN <-> i + j < n.
  Proof.
    unfold rc. destruct (Nat.ltb_spec (i + j) n); split; intro; auto; try discriminate; try lia; congruence.
  Qed.
  Lemma r_holds : holds m os ds rf.
  Proof.
    unfold m, rmat. repeat split; cbn [m_idx m_cols m_cells]; auto.
    - rewrite mk_length. auto.
    - intros row Hr. rewrite Ld. revert row Hr. apply mk_wfm.
    - intros i j Hi Hj. rewrite Lo in Hi. rewrite Ld in Hj.
      change (nth j (nth i (mk n n (rc n C)) []) NaN = rf (o_ i) (d_ j)).
      rewrite (rf_nth i j) by auto. apply (cell_mk n n (rc n C) i j); auto.
  Qed.
  Lemma r_reg i j : i < n -> j < n -> (rf (o_ i) (d_ j) <> NaN <-> i + j < n).
  Proof. intros. rewrite rf_nth by auto. apply rc_iff. Qed.

  Lemma r_latest_by_origin v : latest_by_origin (mkTri m "origin" "dev" v)
    = Ok (map (fun i => (o_ i, Fin (C i (n - 1 - i)%nat))) (seq 0 n)).
  Proof.
    unfold latest_by_origin. rewrite (reg_latest m os ds rf n v So Sd r_holds Lo Ld Hn r_reg).
    cbn [bind]. f_equal. rewrite map_map. cbn.
    assert (E : map (fun i => (nth i os 0%Z, rf (nth i os 0%Z) (nth (n - 1 - i) ds 0%Z))) (seq 0 n)
              = map (fun i => (o_ i, Fin (C i (n - 1 - i)%nat))) (seq 0 n)).
    { apply map_seq_ext. intros i Hi. f_equal.
      change (rf (o_ i) (d_ (n - 1 - i)) = Fin (C i (n - 1 - i)%nat)). rewrite rf_nth by lia. unfold rc.
      apply ltb_if. lia. }
    rewrite E. apply zsorted_zvsort. rewrite map_map. cbn. unfold o_. rewrite <- Lo, map_nth_seq. auto.
  Qed.

  Lemma r_clvi : clvi m = Ok (map (fun j => n - 1 - j) (seq 0 n)).
  Proof.
    unfold clvi, m, rmat, nrows, ncols. cbn [m_idx m_cols m_cells]. rewrite Lo, Ld.
    apply (clvi_cells_mk n n (rc n C) (fun j => n - 1 - j)). intros j Hj. split; [lia|]. split.
    - apply rc_iff. lia.
    - intros i Hi. unfold rc. apply nltb_if. lia.
  Qed.
  Lemma r_maturity : maturity m (triind n (map (fun j => n - 1 - j) (seq 0 n)))
    = Ok (map (fun i => d_ (n - 1 - i)) (seq 0 n)).
  Proof.
    rewrite triind_rows. unfold maturity. apply mapM_map. intros i Hi. apply in_seq in Hi.
    assert (L : last_false (map (fun j => n - 1 - j <? i) (seq 0 n)) = Some (n - 1 - i)).
    { apply last_false_map. split; [lia|]. split; [apply Nat.ltb_ge; lia|].
      intros j Hj. apply Nat.ltb_lt. lia. }
    rewrite L. auto.
  Qed.

  (** ** Link ratios *)

  Definition link (i j : nat) : Qc := (C i (S j) / C i j)%Qc.
  Hypothesis Pos : positive n C.

  Lemma r_ratio i j : i < n -> j < n ->
    cell (ratio_cells m) i j = if i + S j <? n then Fin (link i j) else NaN.
  Proof.
    intros Hi Hj. unfold ratio_cells, m, rmat, nrows, ncols. cbn [m_idx m_cols m_cells]. rewrite Lo, Ld.
    rewrite cell_mk by auto. rewrite (cell_mk n n (rc n C) i j) by auto.
    destruct (Nat.ltb_spec (i + S j) n) as [L|L].
    - rewrite ltb_if by lia. rewrite cell_mk by lia. unfold rc. rewrite !ltb_if by lia.
      rewrite vdiv_fin; auto. apply qc_pos_neq, Pos. lia.
    - destruct (Nat.ltb_spec (S j) n).
      + rewrite cell_mk by lia. unfold rc at 1. rewrite nltb_if by lia. apply vdiv_nan_l.
      + apply vdiv_nan_l.
  Qed.
  Lemma r_keep_cols : keep_cols (nrows m) (ncols m) (ratio_cells m) = seq 0 (n - 1).
  Proof.
    unfold keep_cols. change (nrows m) with (length os). change (ncols m) with (length ds). rewrite Lo, Ld.
    apply filter_seq_prefix; [lia|]. intros j Hj. apply eq_true_iff_eq. rewrite existsb_seq, Nat.ltb_lt. split.
    - intros (i & Hi & Q). rewrite r_ratio in Q by auto. destruct (Nat.ltb_spec (i + S j) n); [lia|discriminate].
    - intro L. exists 0. split; auto. rewrite r_ratio by lia. rewrite ltb_if by lia. auto.
  Qed.
  Lemma r_keep_rows : keep_rows (nrows m) (seq 0 (n - 1)) (ratio_cells m) = seq 0 (n - 1).
  Proof.
    unfold keep_rows. change (nrows m) with (length os). rewrite Lo.
    apply filter_seq_prefix; [lia|]. intros j Hj. apply eq_true_iff_eq. rewrite existsb_seq, Nat.ltb_lt. split.
    - intros (i & Hi & Q). rewrite r_ratio in Q by lia. destruct (Nat.ltb_spec (j + S i) n); [lia|discriminate].
    - intro L. exists 0. split; [lia|]. rewrite r_ratio by lia. rewrite ltb_if by lia. auto.
  Qed.
  Lemma r_a2a : a2a m = rmat (firstn (n - 1) os) (firstn (n - 1) ds) (n - 1) link.
  Proof.
    unfold a2a. rewrite r_keep_cols, r_keep_rows. unfold rmat. rewrite <- !firstn_map_nth by lia.
    f_equal. unfold mk. apply map_seq_ext. intros i Hi. apply map_seq_ext. intros j Hj.
    rewrite r_ratio by lia. unfold rc. destruct (Nat.ltb_spec (i + S j) n), (Nat.ltb_spec (i + j) (n - 1)); auto; lia.
  Qed.
End Reg.

Lemma zsorted_firstn l k : zsorted l -> zsorted (firstn k l).
Proof.
  intro S. revert k. induction S as [|x l S IH F]; intros [|k]; simpl; try constructor; auto.
  - apply IH.
  - rewrite Forall_forall in *. intros y Hy. apply F. clear -Hy. revert k Hy.
    induction l; intros [|k] Hy; simpl in *; try contradiction. destruct Hy; eauto.
Qed.

(** ** Chain ladder for given factors *)

Lemma suffix_prods_seq (f : nat -> Qc) k a :
  suffix_prods (map (fun j => Fin (f j)) (seq a k)) = map (fun j => Fin (prodf j (a + k - j) f)) (seq a k).
Proof.
  revert a. induction k as [|k IH]; intro a; auto. cbn [seq map suffix_prods]. rewrite IH.
  destruct k as [|k].
  - cbn [seq map]. replace (a + 1 - a) with 1 by lia. unfold prodf. simpl. do 2 f_equal. ring.
  - cbn [seq map]. cbn [vmul].
    replace (a + S (S k) - a) with (S (S k)) by lia.
    replace (S a + S k - S a) with (S k) by lia.
    f_equal.
    + rewrite (prodf_Sl a (S k)). f_equal. ring.
    + f_equal.
      * do 2 f_equal. lia.
      * apply map_ext. intro j. do 2 f_equal. lia.
Qed.

Definition sq (n : nat) (C : nat -> nat -> Qc) (f : nat -> Qc) (i j : nat) : Qc :=
  if i + j <? n then C i j else (C i (n - 1 - i)%nat * prodf (n - 1 - i) (j - (n - 1 - i)) f)%Qc.

Lemma sq_step n C f i j : i < n -> n <= i + S j -> sq n C f i (S j) = (sq n C f i j * f j)%Qc.
Proof.
  intros Hi L. unfold sq. rewrite (nltb_if (i + S j)) by auto. destruct (Nat.ltb_spec (i + j) n) as [L'|L'].
  - replace (n - 1 - i) with j by lia. replace (S j - j) with 1 by lia. rewrite prodf_Sl, prodf_0. ring.
  - replace (S j - (n - 1 - i)) with (S (j - (n - 1 - i))) by lia. rewrite prodf_Sr.
    replace (n - 1 - i + (j - (n - 1 - i))) with j by lia. ring.
Qed.

Section CL.
  Variables (os ds : list Z) (n : nat) (C : nat -> nat -> Qc).
  Hypothesis So : zsorted os.
  Hypothesis Sd : zsorted ds.
  Hypothesis Lo : length os = n.
  Hypothesis Ld : length ds = n.
  Hypothesis Hn : 0 < n.
  Let m := rmat os ds n C.
  Let o_ i := nth i os 0%Z.
  Let d_ j := nth j ds 0%Z.
  Variable f : nat -> Qc.

  Definition fser : series := map (fun j => (d_ j, Fin (f j))) (seq 0 n).
  Definition cdf (k : nat) : Qc := prodf k (n - k) f.

  Lemma fser_fst : map fst fser = ds.
  Proof. unfold fser. rewrite map_map. cbn. unfold d_. rewrite <- Ld. apply map_nth_seq. Qed.
  Lemma fser_snd : map snd fser = map (fun j => Fin (f j)) (seq 0 n).
  Proof. unfold fser. rewrite map_map. auto. Qed.

  Lemma r_cldfs : cldfs fser = map (fun k => (d_ k, Fin (cdf k))) (seq 0 n).
  Proof.
    unfold cldfs. rewrite fser_fst, fser_snd, suffix_prods_seq.
    assert (E : combine ds (map (fun j => Fin (prodf j (0 + n - j) f)) (seq 0 n))
              = map (fun k => (d_ k, Fin (cdf k))) (seq 0 n)).
    { rewrite <- (map_nth_seq ds) at 1. rewrite Ld. apply combine_map_lr. }
    rewrite E. apply zsorted_zvsort. rewrite map_map. cbn. unfold d_. rewrite <- Ld, map_nth_seq. auto.
  Qed.

  Lemma r_ultimates v : ultimates (mkTri m "origin" "dev" v) (cldfs fser)
    = Ok (map (fun i => (o_ i, Fin (C i (n - 1 - i)%nat * cdf (n - 1 - i))%Qc)) (seq 0 n)).
  Proof.
    unfold ultimates. unfold m. rewrite r_latest_by_origin by auto. cbn [bind]. rewrite r_cldfs.
    rewrite !map_map. cbn [snd]. rewrite rev_map_seq. unfold bmul. rewrite !map_length, !seq_length, Nat.eqb_refl.
    cbn [bind]. rewrite !map_length, combine_length, !map_length, !seq_length, Nat.min_id.
    unfold nrows. cbn [t_mat rmat m_idx]. rewrite Lo, Nat.eqb_refl. f_equal.
    rewrite combine_map_lr, map_map. cbn [fst snd vmul].
    assert (E : combine os (map (fun i => Fin (C i (n - 1 - i)%nat * cdf (n - 1 - i))%Qc) (seq 0 n))
              = map (fun i => (o_ i, Fin (C i (n - 1 - i)%nat * cdf (n - 1 - i))%Qc)) (seq 0 n)).
    { rewrite <- (map_nth_seq os) at 1. rewrite Lo. apply combine_map_lr. }
    rewrite E. apply zsorted_zvsort. rewrite map_map. cbn. unfold o_. rewrite <- Lo, map_nth_seq. auto.
  Qed.

  Lemma o_nodup : NoDup (map o_ (seq 0 n)).
  Proof. unfold o_. rewrite <- Lo, map_nth_seq. apply zsorted_nodup; auto. Qed.
  Lemma d_nodup : NoDup (map d_ (seq 0 n)).
  Proof. unfold d_. rewrite <- Ld, map_nth_seq. apply zsorted_nodup; auto. Qed.
  Lemma o_look (h : nat -> val) i : i < n -> slookup (map (fun i => (o_ i, h i)) (seq 0 n)) (o_ i) = h i.
  Proof. intro Hi. apply slookup_map; [apply o_nodup|apply in_seq; lia]. Qed.
  Lemma d_look (h : nat -> val) i : i < n -> slookup (map (fun i => (d_ i, h i)) (seq 0 n)) (d_ i) = h i.
  Proof. intro Hi. apply slookup_map; [apply d_nodup|apply in_seq; lia]. Qed.

  Lemma r_reserves v : reserves (mkTri m "origin" "dev" v)
      (map (fun i => (o_ i, Fin (C i (n - 1 - i)%nat * cdf (n - 1 - i))%Qc)) (seq 0 n))
    = Ok (map (fun i => (o_ i, Fin (C i (n - 1 - i)%nat * cdf (n - 1 - i) - C i (n - 1 - i)%nat)%Qc)) (seq 0 n)).
  Proof.
    unfold reserves. unfold m. rewrite r_latest_by_origin by auto. cbn [bind t_mat rmat m_idx]. f_equal.
    assert (E : map (fun o => (o, vsub (slookup (map (fun i => (o_ i, Fin (C i (n - 1 - i)%nat * cdf (n - 1 - i))%Qc)) (seq 0 n)) o)
                 (slookup (map (fun i => (o_ i, Fin (C i (n - 1 - i)%nat))) (seq 0 n)) o))) os
              = map (fun i => (o_ i, Fin (C i (n - 1 - i)%nat * cdf (n - 1 - i) - C i (n - 1 - i)%nat)%Qc)) (seq 0 n)).
    { rewrite <- (map_nth_seq os) at 1. rewrite Lo, map_map. apply map_seq_ext. intros i Hi. cbn beta.
      change (nth i os 0%Z) with (o_ i).
      rewrite (o_look (fun i => Fin (C i (n - 1 - i)%nat * cdf (n - 1 - i))%Qc)) by lia.
      rewrite (o_look (fun i => Fin (C i (n - 1 - i)%nat))) by lia. auto. }
    etransitivity; [exact (f_equal zvsort E)|]. apply zsorted_zvsort. rewrite map_map. cbn. unfold o_. rewrite <- Lo, map_nth_seq. auto.
  Qed.

  Lemma r_mcol j : j < n -> mcol m j = map (fun i => rc n C i j) (seq 0 n).
  Proof.
    intro Hj. unfold mcol, m, rmat, nrows. cbn [m_idx m_cells]. rewrite Lo. apply map_seq_ext. intros i Hi.
    apply cell_mk; lia.
  Qed.

  Definition sqcol (j : nat) : list val := map (fun i => Fin (sq n C f i j)) (seq 0 n).

  Lemma r_sqr_col j : S j < n -> sqr_col (n - 1 - S j) (Fin (f j)) (sqcol j) (mcol m (S j)) = sqcol (S j).
  Proof.
    intro Hj. rewrite r_mcol by lia. unfold sqr_col, sqcol. rewrite map_length, seq_length.
    rewrite combine_map_lr. rewrite <- (map_id (seq 0 n)) at 1. rewrite combine_map_lr, map_map.
    apply map_seq_ext. intros i Hi. cbn [fst snd]. destruct (Nat.ltb_spec (n - 1 - S j) i) as [L|L].
    - cbn [vmul]. rewrite sq_step by lia. auto.
    - unfold rc, sq. rewrite !ltb_if by lia. auto.
  Qed.
  Lemma r_sqr_cols k : forall j, j + k < n ->
    sqr_cols (sqcol j) (combine (map (mcol m) (seq (S j) k))
       (combine (map (fun j => n - 1 - j) (seq (S j) k)) (map (fun j => Fin (f j)) (seq j k))))
    = map sqcol (seq (S j) k).
  Proof.
    induction k as [|k IH]; intros j L; auto. cbn [seq map combine sqr_cols].
    rewrite r_sqr_col by lia. f_equal. apply IH. lia.
  Qed.
  Lemma combine_trunc {A B} (a : list A) (b c : list B) : length a = length b -> combine a (b ++ c) = combine a b.
  Proof. revert b. induction a; destruct b; simpl; intros; try discriminate; auto. f_equal. auto. Qed.

  Lemma r_trisqrd : trisqrd m (map (fun j => n - 1 - j) (seq 0 n)) (map snd fser)
    = Ok (mk n n (fun i j => Fin (sq n C f i j)),
          map (fun i => Fin (C i (n - 1 - i)%nat * cdf (n - 1 - i))%Qc) (seq 0 n)).
  Proof.
    unfold trisqrd, trisqrd_cols. rewrite fser_snd, map_length, seq_length.
    change (ncols m) with (length ds). rewrite Ld. rewrite nltb_if by lia.
    assert (Es : seq 0 n = 0 :: seq 1 (n - 1)) by (destruct n; [lia|]; simpl; rewrite Nat.sub_0_r; auto).
    assert (Er : seq 0 n = seq 0 (n - 1) ++ [n - 1]) by (replace n with (S (n - 1)) at 1 by lia; rewrite seq_S; auto).
    assert (A : map (mcol m) (seq 0 n) = sqcol 0 :: map (mcol m) (seq 1 (n - 1))).
    { rewrite Es. cbn [map]. f_equal. rewrite r_mcol by lia. unfold sqcol. apply map_seq_ext. intros i Hi.
      unfold rc, sq. rewrite !ltb_if by lia. auto. }
    assert (B : tl (map (fun j => n - 1 - j) (seq 0 n)) = map (fun j => n - 1 - j) (seq 1 (n - 1))).
    { rewrite Es. auto. }
    assert (D : map (fun j => Fin (f j)) (seq 0 n) = map (fun j => Fin (f j)) (seq 0 (n - 1)) ++ [Fin (f (n - 1))]).
    { rewrite Er, map_app. auto. }
    rewrite A, B, D, combine_trunc by (rewrite !map_length, !seq_length; auto).
    rewrite r_sqr_cols by lia. cbn [bind]. rewrite last_last.
    assert (Q : sqcol 0 :: map sqcol (seq 1 (n - 1)) = map sqcol (seq 0 n)) by (rewrite Es; auto).
    rewrite Q, last_map_seq by lia. f_equal. f_equal.
    - unfold mk. change (nrows m) with (length os). rewrite Lo. apply map_seq_ext. intros i Hi.
      rewrite map_map. apply map_seq_ext. intros j Hj. unfold sqcol. rewrite nth_map_seq by lia. auto.
    - unfold sqcol. rewrite map_map. apply map_seq_ext. intros i Hi. cbn [vmul]. f_equal.
      unfold sq, cdf. destruct (Nat.ltb_spec (i + (n - 1)) n) as [L|L].
      + replace i with 0 by lia. replace (n - 1 - 0) with (n - 1) by lia. replace (n - (n - 1)) with 1 by lia.
        rewrite prodf_Sl, prodf_0. ring.
      + replace (n - (n - 1 - i)) with (S (n - 1 - (n - 1 - i))) by lia. rewrite prodf_Sr.
        replace (n - 1 - i + (n - 1 - (n - 1 - i))) with (n - 1) by lia. ring.
  Qed.

  Lemma combine_nth_seq {B} (g : nat -> B) : combine os (map g (seq 0 n)) = map (fun i => (o_ i, g i)) (seq 0 n).
  Proof. rewrite <- (map_nth_seq os) at 1. rewrite Lo. apply combine_map_lr. Qed.

  Definition rrow (i : nat) : srow :=
    mkRow (o_ i) (d_ (n - 1 - i)) (Fin (cdf (n - 1 - i))) (vdiv (Fin 1%Qc) (Fin (cdf (n - 1 - i))))
      (Fin (C i (n - 1 - i)%nat)) (Fin (C i (n - 1 - i)%nat * cdf (n - 1 - i))%Qc)
      (Fin (C i (n - 1 - i)%nat * cdf (n - 1 - i) - C i (n - 1 - i)%nat)%Qc).

  Lemma r_chain_ladder v tail : chain_ladder (mkTri m "origin" "dev" v) (map (fun j => n - 1 - j) (seq 0 n)) fser tail
    = Ok (mkRes (map rrow (seq 0 n))
        (Fin (sumf 0 n (fun i => C i (n - 1 - i)%nat)),
         Fin (sumf 0 n (fun i => C i (n - 1 - i)%nat * cdf (n - 1 - i))%Qc),
         Fin (sumf 0 n (fun i => C i (n - 1 - i)%nat * cdf (n - 1 - i) - C i (n - 1 - i)%nat)%Qc))
        fser
        (mk n n (fun i j => Fin (sq n C f i j)),
         map (fun i => Fin (C i (n - 1 - i)%nat * cdf (n - 1 - i))%Qc) (seq 0 n))
        tail).
  Proof.
    unfold chain_ladder. rewrite r_ultimates. cbn [bind]. rewrite r_reserves. cbn [bind t_mat].
    change (nrows m) with (length os). rewrite Lo. unfold m. rewrite r_maturity by auto. cbn [bind].
    rewrite r_latest_by_origin by auto. cbn [bind]. fold m. rewrite r_trisqrd. cbn [bind].
    change (m_idx m) with os. fold d_ o_. rewrite combine_nth_seq, map_map. cbn [fst snd].
    set (rows := map _ (seq 0 n)).
    assert (E : rows = map rrow (seq 0 n)).
    { unfold rows. apply map_seq_ext. intros i Hi. unfold rrow.
      assert (K1 := d_look (fun k => Fin (cdf k)) (n - 1 - i)). cbv beta in K1. rewrite <- r_cldfs in K1.
      assert (K2 := o_look (fun i => Fin (C i (n - 1 - i)%nat)) i).
      assert (K3 := o_look (fun i => Fin (C i (n - 1 - i)%nat * cdf (n - 1 - i))%Qc) i).
      assert (K4 := o_look (fun i => Fin (C i (n - 1 - i)%nat * cdf (n - 1 - i) - C i (n - 1 - i)%nat)%Qc) i).
      cbv beta in K2, K3, K4. unfold d_, o_ in *. rewrite K1, K2, K3, K4 by lia. auto. }
    rewrite E, !map_map. cbn [rrow s_latest s_ultimate s_reserve].
    unfold sumf. rewrite <- !skipsum_fin, !map_map. auto.
  Qed.
End CL.
