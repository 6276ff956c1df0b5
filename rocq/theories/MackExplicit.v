(** The complete result of mack_cl on a positive run-off triangle, as a closed formula
    of the labels, the cells C and the weights W.  Used to compare the results on
    related triangles (C52-C55). *)

From Coq Require Import String QArith Qcanon ZArith List Bool Lia Permutation Sorting.Sorted.
From Verif Require Import Val Frame Triangle A2A Base Mack ListLib QcLib Spec RegFacts BaseClaims MackFacts MackClaims MackClaims2 MackClaims3.
Import ListNotations.
Open Scope list_scope.
Open Scope nat_scope.

Section Formula.
  Variables (n : nat) (C W : nat -> nat -> Qc) (al : nat).

  Definition xf (j : nat) : Qc :=
    (if S j <? n then sumf 0 (n - 1 - j) (fun i => W i j * C i j ^ al * (C i (S j) / C i j))
                      / sumf 0 (n - 1 - j) (fun i => W i j * C i j ^ al) else 1)%Qc.
  Definition xs2 : nat -> Qc := sigma2 n C W al xf.
  Definition xdeg : bool := qceqb (xs2 (n - 4)) 0%Qc && qceqb (xs2 (n - 3)) 0%Qc.
  Definition xlast : Qc :=
    if qceqb (xs2 (n - 4)) 0%Qc then 0%Qc
    else qmin (xs2 (n - 3) * xs2 (n - 3) / xs2 (n - 4))%Qc (qmin (xs2 (n - 3)) (xs2 (n - 4))).
  Definition xs (j : nat) : Qc := if j <? n - 2 then xs2 j else xlast.
  Definition xu (j : nat) : Qc := (xs j / sumf 0 (n - 1 - j) (fun i => W i j * C i j ^ al))%Qc.
  Definition xlat (i : nat) : Qc := C i (n - 1 - i).
  Definition xcdf (i : nat) : Qc := prodf (n - 1 - i) (S i) xf.
  Definition xproc (i : nat) : Qc :=
    if xdeg then 0%Qc else
    (projected n C xf i (n - 1) * projected n C xf i (n - 1)
     * sumf (n - 1 - i) i (fun j => xs j / (xf j * xf j) / projected n C xf i j))%Qc.
  Definition xparam (i : nat) : Qc :=
    if xdeg then 0%Qc else
    (xlat i * xlat i * (prodf (n - 1 - i) i (fun j => xf j * xf j + xu j) - prodf (n - 1 - i) i (fun j => xf j * xf j)))%Qc.
  Definition xmse (i : nat) : Qc := (xproc i + xparam i)%Qc.
  Definition xtot : Qc :=
    if xdeg then 0%Qc else
    sumf 1 (n - 1) (fun i => xmse i
      + qz 2 * projected n C xf i (n - 1) * sumf (S i) (n - 1 - i) (fun l => projected n C xf l (n - 1))
        * sumf (n - 1 - i) i (fun j => xs j / (xf j * xf j) / sumf 0 (n - 1 - j) (fun l => C l j)))%Qc.
  Definition xmissing (j : nat) (x : Qc) : val := if xdeg && negb (j <? n - 2) then NaN else Fin x.
End Formula.

Definition xrow (os ds : list Z) (n : nat) (C W : nat -> nat -> Qc) (al i : nat) : srow :=
  mkRow (nth i os 0%Z) (nth (n - 1 - i) ds 0%Z) (Fin (xcdf n C W al i)) (vdiv (Fin 1%Qc) (Fin (xcdf n C W al i)))
        (Fin (xlat n C i)) (Fin (xlat n C i * xcdf n C W al i)%Qc) (Fin (xlat n C i * xcdf n C W al i - xlat n C i)%Qc).
Definition mack_pure (os ds : list Z) (n : nat) (C W : nat -> nat -> Qc) (al : nat) (tail : val) : mack_result :=
  mkMack
    (mkRes (map (xrow os ds n C W al) (seq 0 n))
       (Fin (sumf 0 n (xlat n C)), Fin (sumf 0 n (fun i => xlat n C i * xcdf n C W al i)%Qc),
        Fin (sumf 0 n (fun i => xlat n C i * xcdf n C W al i - xlat n C i)%Qc))
       (map (fun j => (nth j ds 0%Z, Fin (xf n C W al j))) (seq 0 n))
       (mk n n (fun i j => Fin (sq n C (xf n C W al) i j)),
        map (fun i => Fin (xlat n C i * xcdf n C W al i)%Qc) (seq 0 n))
       tail)
    (map (fun j => (nth j ds 0%Z, xmissing n C W al j (xs n C W al j))) (seq 0 (n - 1)))
    (map (fun j => (nth j ds 0%Z, xmissing n C W al j (xu n C W al j))) (seq 0 (n - 1)))
    (map (fun i => Fin (xproc n C W al i)) (seq 0 n))
    (map (fun i => Fin (xparam n C W al i)) (seq 0 n))
    (map (fun i => Fin (xmse n C W al i)) (seq 0 n))
    (Fin (xtot n C W al)).

Lemma mack_result_eta k a b c d e g r1 r2 r3 r4 r5 : 
  c_rows (k_cl k) = r1 -> c_total (k_cl k) = r2 -> c_ldfs (k_cl k) = r3 -> c_trisqrd (k_cl k) = r4 -> c_tail (k_cl k) = r5 ->
  k_devpvar k = a -> k_ldfvar k = b -> k_proc k = c -> k_param k = d -> k_mse k = e -> k_mse_total k = g ->
  k = mkMack (mkRes r1 r2 r3 r4 r5) a b c d e g.
Proof. destruct k as [[]]. cbn. intros; subst; reflexivity. Qed.

Lemma xden_pos n C W al j : positive n C -> (forall i j, i + j < n - 1 -> (0 <= W i j)%Qc) ->
  (exists i, i + j < n - 1 /\ (0 < W i j)%Qc) ->
  (0 < sumf 0 (n - 1 - j) (fun i => W i j * C i j ^ al))%Qc.
Proof.
  intros P Wn (i & Hi & Wp). replace (n - 1 - j) with (i + S (n - 2 - j - i)) by lia. rewrite sumf_split, sumf_Sl.
  cbn [plus]. assert (A : forall i, i + j < n - 1 -> (0 <= W i j * C i j ^ al)%Qc).
  { intros k Hk. apply qc_mul_nonneg; auto. apply Qclt_le_weak, qpow_pos, P. lia. }
  assert (A1 : (0 <= sumf 0 i (fun i => W i j * C i j ^ al))%Qc) by (apply sumf_nonneg; intros; apply A; lia).
  assert (A2 : (0 <= sumf (S i) (n - 2 - j - i) (fun i => W i j * C i j ^ al))%Qc) by (apply sumf_nonneg; intros; apply A; lia).
  assert (A3 : (0 < W i j * C i j ^ al)%Qc) by (apply qc_mul_pos; auto; apply qpow_pos, P; lia).
  qlra.
Qed.

Lemma mack_explicit m n C ind W al v cl tail : regular m n C -> positive n C -> 3 < n -> tail_fits (m_cols m) ->
  clvi m = Ok cl -> weights ind n W ->
  mack_cl (mkTri m "origin" "dev" v) cl ind al tail = Ok (mack_pure (m_idx m) (m_cols m) n C W al tail).
Proof.
  intros R P Hn Ev D Hw.
  destruct (c29 m n C ind W al v cl tail R P Hn Ev D Hw) as (k & K & L).
  rewrite K. f_equal. fold (xf n C W al) in L. 
  destruct (k_eq m n C R P Hn Ev cl D ind W Hw al v tail k K) as (_ & Rw & _ & _ & Pr & Pa & Ms & Mt).
  destruct (c32_devpvar m n C R P Hn Ev cl D ind W Hw al v tail k K (xf n C W al) L) as (x & X1 & X2 & X3 & X4 & X5 & X6).
  fold (xs2 n C W al) in *.
  assert (Wn := Hw). destruct Wn as (Wi & Wn & Wc).
  destruct (mack_eq m n C R Hn P Ev ind W Wi Wn Wc al v cl D tail) as (r & _ & _ & Er & Kr).
  rewrite K in Kr. injection Kr as Kr. assert (Ek : k_cl k = r) by (rewrite Kr; reflexivity). clear Kr.
  assert (Xx : x = if xdeg n C W al then NaN else Fin (xlast n C W al)).
  { unfold xdeg, xlast. destruct (qceqb (xs2 n C W al (n - 4)) 0) eqn:E4.
    - apply qceqb_eq in E4. destruct (qceqb (xs2 n C W al (n - 3)) 0) eqn:E3; cbn [andb].
      + apply qceqb_eq in E3. auto.
      + apply X4; auto. assert (N := X2 (n - 3) ltac:(lia)). apply Qcle_lt_or_eq in N as [N|N]; auto.
        rewrite <- N in E3. rewrite qceqb_refl in E3. discriminate.
    - cbn [andb]. apply X3. assert (N := X2 (n - 4) ltac:(lia)). apply Qcle_lt_or_eq in N as [N|N]; auto.
      rewrite <- N in E4. rewrite qceqb_refl in E4. discriminate. }
  assert (V : k_devpvar k = map (fun j => (nth j (m_cols m) 0%Z, xmissing n C W al j (xs n C W al j))) (seq 0 (n - 1))).
  { rewrite X1, Xx. apply map_seq_ext. intros j Hj. unfold xmissing, xs. destruct (j <? n - 2), (xdeg n C W al); reflexivity. }
  assert (U : k_ldfvar k = map (fun j => (nth j (m_cols m) 0%Z, xmissing n C W al j (xu n C W al j))) (seq 0 (n - 1))).
  { rewrite X6, combine_seq, map_map. 2:{ destruct R as (_ & _ & _ & Lc & _). lia. }
    apply map_seq_ext. intros j Hj. cbn [fst snd]. rewrite V.
    rewrite (nth_indep _ _ ((fun j => (nth j (m_cols m) 0%Z, xmissing n C W al j (xs n C W al j))) 0)) by (rewrite map_length, seq_length; lia).
    rewrite (map_nth (fun j => (nth j (m_cols m) 0%Z, xmissing n C W al j (xs n C W al j)))), seq_nth by lia. cbn [snd plus].
    assert (Dp := xden_pos n C W al j P Wn (Wc j ltac:(lia))).
    unfold xmissing. destruct (xdeg n C W al && negb (j <? n - 2)); [reflexivity|].
    rewrite vdiv_fin by (intro Z0; rewrite Z0 in Dp; discriminate Dp). reflexivity. }
  assert (EA : k_proc k = map (fun i => Fin (xproc n C W al i)) (seq 0 n)).
  { unfold xproc. destruct (xdeg n C W al) eqn:Dg.
    + unfold xdeg in Dg. apply andb_true_iff in Dg as [D4 D3]. apply qceqb_eq in D4, D3.
      apply (c32_nan m n C R P Hn Ev cl D ind W Hw al v tail k K _ L); auto.
    + assert (V' : k_devpvar k = map (fun j => (nth j (m_cols m) 0%Z, Fin (xs n C W al j))) (seq 0 (n - 1))).
      { rewrite V. unfold xmissing. rewrite Dg. reflexivity. }
      apply (nth_ext _ _ NaN NaN). { rewrite Pr, !map_length. auto. }
      intros i Hi. rewrite Pr, map_length, seq_length in Hi. rewrite nth_map_seq by lia. cbn [plus].
      apply (c30 m n C R P Hn Ev cl D ind W Hw al v tail k K _ _ L V' i Hi). }
  assert (EB : k_param k = map (fun i => Fin (xparam n C W al i)) (seq 0 n)).
  { unfold xparam. destruct (xdeg n C W al) eqn:Dg.
    + unfold xdeg in Dg. apply andb_true_iff in Dg as [D4 D3]. apply qceqb_eq in D4, D3.
      apply (c32_nan m n C R P Hn Ev cl D ind W Hw al v tail k K _ L); auto.
    + assert (U' : k_ldfvar k = map (fun j => (nth j (m_cols m) 0%Z, Fin (xu n C W al j))) (seq 0 (n - 1))).
      { rewrite U. unfold xmissing. rewrite Dg. reflexivity. }
      apply (nth_ext _ _ NaN NaN). { rewrite Pa, !map_length. auto. }
      intros i Hi. rewrite Pa, map_length, seq_length in Hi. rewrite nth_map_seq by lia. cbn [plus].
      apply (c31 m n C R P Hn Ev cl D ind W Hw al v tail k K _ _ L U' i Hi). }
  assert (EM : k_mse k = map (fun i => Fin (xmse n C W al i)) (seq 0 n)).
  { destruct (c32_nonneg m n C R P Hn Ev cl D ind W Hw al v tail k K) as (p & q & P1 & P2 & P3 & _).
    rewrite P3. rewrite P1 in EA. rewrite P2 in EB. apply map_seq_ext. intros i Hi.
    assert (A1 := map_seq_inj _ _ _ _ EA i ltac:(lia)). assert (A2 := map_seq_inj _ _ _ _ EB i ltac:(lia)).
    cbn beta in A1, A2. injection A1 as ->. injection A2 as ->. reflexivity. }
  apply mack_result_eta; auto.
  - rewrite Rw. apply map_seq_ext. intros i Hi. unfold rrow, xrow, xcdf, cdf, xlat.
    replace (n - (n - 1 - i)) with (S i) by lia. reflexivity.
  - rewrite Ek, Er. cbn [c_total]. unfold cdf, xcdf, xlat.
    f_equal; [f_equal|]; f_equal; apply sumf_ext; intros i Hi; replace (n - (n - 1 - i)) with (S i) by lia; reflexivity.
  - rewrite Ek, Er. cbn [c_trisqrd]. f_equal. apply map_seq_ext. intros i Hi. unfold cdf, xcdf, xlat. replace (n - (n - 1 - i)) with (S i) by lia. reflexivity.
  - rewrite Ek, Er. reflexivity.
  - unfold xtot. destruct (xdeg n C W al) eqn:Dg.
    + unfold xdeg in Dg. apply andb_true_iff in Dg as [D4 D3]. apply qceqb_eq in D4, D3.
      apply (c32_nan m n C R P Hn Ev cl D ind W Hw al v tail k K _ L); auto.
    + assert (V' : k_devpvar k = map (fun j => (nth j (m_cols m) 0%Z, Fin (xs n C W al j))) (seq 0 (n - 1))).
      { rewrite V. unfold xmissing. rewrite Dg. reflexivity. }
      exact (c33 m n C R P Hn Ev cl D ind W Hw al v tail k K _ _ L V' _ EM).
Qed.
