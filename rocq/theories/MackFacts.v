(** The Mack model on regular run-off triangles. *)

From Coq Require Import String QArith Qcanon ZArith List Bool Lia Permutation Sorting.Sorted.
From Verif Require Import Val Frame Triangle A2A Base Mack ListLib QcLib Spec TblFacts ConvFacts TriClaims4 RegFacts AvgFacts.
Import ListNotations.
Open Scope list_scope.
Open Scope nat_scope.

Lemma vpow_fin q k : vpow (Fin q) k = Fin (q ^ k)%Qc.
Proof. induction k; simpl; auto. rewrite IHk. auto. Qed.
Lemma qpow2 (q : Qc) : (q ^ 2 = q * q)%Qc.
Proof. unfold Qcpower. ring. Qed.
Lemma qpow_pos (q : Qc) k : (0 < q)%Qc -> (0 < q ^ k)%Qc.
Proof. intro H. induction k; simpl; [apply qc_0_lt_1|apply qc_mul_pos; auto]. Qed.

Lemma zunion_same l : zunion l l = l.
Proof. unfold zunion. assert (E : listb Z.eqb l l = true) by (induction l; simpl; rewrite ?Z.eqb_refl; auto). rewrite E. auto. Qed.

Lemma cell_at_nth os ds cs i j : NoDup os -> NoDup ds -> i < length os -> j < length ds ->
  cell_at (mkMat os ds cs) (nth i os 0%Z) (nth j ds 0%Z) = Some (cell cs i j).
Proof. intros A B Hi Hj. unfold cell_at. cbn [m_idx m_cols m_cells]. rewrite !zfind_nth by auto. auto. Qed.

Lemma map_by_pos {A} (F : Z -> A) l : map F l = map (fun i => F (nth i l 0%Z)) (seq 0 (length l)).
Proof. etransitivity; [|apply (map_map (fun i => nth i l 0%Z) F)]. rewrite map_nth_seq. auto. Qed.

Lemma falign_mk op os ds N g h : NoDup os -> NoDup ds -> length os = N -> length ds = N ->
  falign op (mkMat os ds (mk N N g)) (mkMat os ds (mk N N h)) = mkMat os ds (mk N N (fun i j => op (g i j) (h i j))).
Proof.
  intros A B Lo Ld. unfold falign. cbn [m_idx m_cols]. rewrite !zunion_same. f_equal.
  set (g' := mk N N g). set (h' := mk N N h).
  unfold mk. rewrite (map_by_pos _ os), Lo. apply map_seq_ext. intros i Hi.
  rewrite (map_by_pos _ ds), Ld. apply map_seq_ext. intros j Hj.
  unfold mget. rewrite !cell_at_nth by (auto; lia). unfold g', h'. rewrite !cell_mk by lia. auto.
Qed.
Lemma fmap_mk g os ds N h : fmap g (mkMat os ds (mk N N h)) = mkMat os ds (mk N N (fun i j => g (h i j))).
Proof. unfold fmap, mk. cbn. f_equal. rewrite map_map. apply map_ext. intro i. rewrite map_map. auto. Qed.
Lemma mcol_mk os ds N h j : length os = N -> j < N -> mcol (mkMat os ds (mk N N h)) j = map (fun i => h i j) (seq 0 N).
Proof.
  intros Lo Hj. unfold mcol, nrows. cbn [m_idx m_cells]. rewrite Lo. apply map_seq_ext. intros i Hi. apply cell_mk; lia.
Qed.
Lemma colsums_mk os ds N h : length os = N -> length ds = N ->
  colsums (mkMat os ds (mk N N h)) = map (fun j => skipsum (map (fun i => h i j) (seq 0 N))) (seq 0 N).
Proof.
  intros Lo Ld. unfold colsums, ncols. cbn [m_cols]. rewrite Ld. apply map_seq_ext. intros j Hj.
  rewrite mcol_mk by (auto; lia). auto.
Qed.
Lemma fcol_mk os ds N h j : NoDup ds -> length os = N -> length ds = N -> j < N ->
  fcol (mkMat os ds (mk N N h)) (nth j ds 0%Z) = Ok (map (fun i => (nth i os 0%Z, h i j)) (seq 0 N)).
Proof.
  intros Nd Lo Ld Hj. unfold fcol. cbn [m_cols m_idx]. rewrite zfind_nth by (auto; lia). rewrite mcol_mk by auto.
  rewrite <- (map_nth_seq os) at 1. rewrite Lo, combine_map_lr. auto.
Qed.
Lemma salign_map op os N (g h : nat -> val) : NoDup os -> length os = N ->
  salign op (map (fun i => (nth i os 0%Z, g i)) (seq 0 N)) (map (fun i => (nth i os 0%Z, h i)) (seq 0 N))
  = map (fun i => (nth i os 0%Z, op (g i) (h i))) (seq 0 N).
Proof.
  intros Nd Lo. unfold salign. rewrite !map_map. cbn [fst]. rewrite zunion_same, map_map.
  assert (Nd' : NoDup (map (fun i => nth i os 0%Z) (seq 0 N))) by (rewrite <- Lo, map_nth_seq; auto).
  apply map_ext_in. intros i Hi. f_equal.
  rewrite !(slookup_map (fun i => nth i os 0%Z)); auto.
Qed.
Lemma smap_map g (a : nat -> Z) (h : nat -> val) l : smap g (map (fun i => (a i, h i)) l) = map (fun i => (a i, g (h i))) l.
Proof. unfold smap. rewrite map_map. auto. Qed.

(** Sums of values that are numbers on a prefix and NaN or zero afterwards. *)
Lemma skipsum_nan_map {A} (l : list A) : skipsum (map (fun _ => NaN) l) = Fin 0%Qc.
Proof. induction l; simpl; auto. Qed.
Lemma skipsum_cons v l : skipsum (v :: l) = vadd (if isnan v then Fin 0%Qc else v) (skipsum l).
Proof. change (v :: l) with ([v] ++ l). rewrite skipsum_app. f_equal. destruct v; simpl; auto. f_equal. ring. Qed.
Lemma skipsum_gen {A} (l : list A) (h : A -> val) (q : A -> Qc) :
  (forall i, In i l -> h i = Fin (q i) \/ (h i = NaN /\ q i = 0%Qc)) -> skipsum (map h l) = Fin (qsum (map q l)).
Proof.
  induction l as [|x l IH]; intro H; auto. cbn [map qsum]. rewrite skipsum_cons, IH by (intros; apply H; right; auto).
  destruct (H x (or_introl eq_refl)) as [->|[-> ->]]; simpl; auto.
Qed.
Lemma sumf_prefix N k q : k <= N -> (forall i, k <= i < N -> q i = 0%Qc) -> sumf 0 N q = sumf 0 k q.
Proof.
  intros L H. replace N with (k + (N - k)) by lia. rewrite sumf_split, (sumf_eq0_zero _ (N - k)); [ring|].
  intros i Hi. apply H. lia.
Qed.
Lemma skipsum_tri N k (h : nat -> val) (q : nat -> Qc) : k <= N ->
  (forall i, i < k -> h i = Fin (q i) \/ (h i = NaN /\ q i = 0%Qc)) -> (forall i, k <= i < N -> h i = NaN) ->
  skipsum (map h (seq 0 N)) = Fin (sumf 0 k q).
Proof.
  intros L A B. rewrite (skipsum_gen _ h (fun i => if i <? k then q i else 0%Qc)).
  - f_equal. change (sumf 0 N (fun i => if i <? k then q i else 0%Qc) = sumf 0 k q).
    rewrite (sumf_prefix N k); auto.
    + apply sumf_ext. intros i Hi. apply ltb_if. lia.
    + intros i Hi. apply nltb_if. lia.
  - intros i Hi. apply in_seq in Hi. destruct (Nat.ltb_spec i k); auto. right. split; auto. apply B. lia.
Qed.

Lemma vmin2_fin a b : vmin2 (Fin a) (Fin b) = Fin (if qcleb a b then a else b).
Proof.
  unfold vmin2. cbn [isnan orb]. unfold vleb. destruct (qcleb a b); auto.
Qed.

Section Mack.
  Variables (os ds : list Z) (n : nat) (C : nat -> nat -> Qc).
  Hypothesis So : zsorted os.
  Hypothesis Sd : zsorted ds.
  Hypothesis Lo : length os = n.
  Hypothesis Ld : length ds = n.
  Hypothesis Hn : 2 < n.
  Hypothesis Pos : positive n C.
  Hypothesis Ev : tail_fits ds.
  Variable ind : list (list val).
  Variable W : nat -> nat -> Qc.
  Hypothesis Hind : forall i j, i < n - 1 -> j < n - 1 ->
    cell ind i j = Fin (if (i + j <? n - 1)%nat then W i j else 0)%Qc.
  Hypothesis Wnn : forall i j, i + j < n - 1 -> (0 <= W i j)%Qc.
  Hypothesis Wcol : forall j, j < n - 1 -> exists i, i + j < n - 1 /\ (0 < W i j)%Qc.
  Variable al : nat.

  Let m := rmat os ds n C.
  Let os' := firstn (n - 1) os.
  Let ds' := firstn (n - 1) ds.
  Notation link := (link C).

  Lemma os'_len : length os' = n - 1. Proof. unfold os'. rewrite firstn_length. lia. Qed.
  Lemma ds'_len : length ds' = n - 1. Proof. unfold ds'. rewrite firstn_length. lia. Qed.
  Lemma os'_nd : NoDup os'. Proof. apply zsorted_nodup, zsorted_firstn; auto. Qed.
  Lemma ds'_nd : NoDup ds'. Proof. apply zsorted_nodup, zsorted_firstn; auto. Qed.
  Lemma ds'_nth j : j < n - 1 -> nth j ds' 0%Z = nth j ds 0%Z.
  Proof. intro H. unfold ds'. rewrite <- (firstn_skipn (n - 1) ds) at 2. rewrite app_nth1; auto. rewrite firstn_length. lia. Qed.

  Lemma r_latest v : latest (mkTri m "origin" "dev" v) =
    Ok (map (fun i => mkrec (nth i os 0%Z) (nth (n - 1 - i) ds 0%Z) (Fin (C i (n - 1 - i)))) (seq 0 n)).
  Proof.
    rewrite (reg_latest m os ds (rf os ds n C) n v); auto; try lia.
    - f_equal. apply map_seq_ext. intros i Hi. f_equal.
      assert (K := rf_nth os ds n C So Sd Lo Ld ltac:(lia) i (n - 1 - i) ltac:(lia) ltac:(lia)). cbv beta in K. rewrite K.
      unfold rc. apply ltb_if. lia.
    - apply r_holds; auto; lia.
    - apply r_reg; auto; lia.
  Qed.

  Lemma r_mod_tri v : mod_tri (mkTri m "origin" "dev" v) = Ok (rmat os' ds' (n - 1) C).
  Proof.
    unfold mod_tri. rewrite r_latest. cbn [bind t_mat]. f_equal.
    set (cs := map _ (m_idx m)).
    assert (E : cs = mk n n (fun i j => if i + j <? n - 1 then Fin (C i j) else NaN)).
    { unfold cs, mk. cbn [m rmat m_idx m_cols]. rewrite (map_by_pos _ os), Lo.
      apply map_seq_ext. intros i Hi. rewrite (map_by_pos _ ds), Ld.
      apply map_seq_ext. intros j Hj.
      unfold mget. unfold m, rmat. rewrite cell_at_nth by (auto using zsorted_nodup; lia). rewrite cell_mk by lia. unfold rc.
      destruct (existsb _ _) eqn:X.
      - apply existsb_exists in X as (r & Hr & K). apply in_map_iff in Hr as (i' & <- & Hi'). apply in_seq in Hi'.
        unfold keqb in K. cbn in K. apply andb_true_iff in K as [K1 K2]. apply Z.eqb_eq in K1, K2.
        apply (proj1 (NoDup_nth os 0%Z)) in K1; [|apply zsorted_nodup; auto|lia|lia].
        apply (proj1 (NoDup_nth ds 0%Z)) in K2; [|apply zsorted_nodup; auto|lia|lia].
        rewrite nltb_if by lia. auto.
      - destruct (Nat.ltb_spec (i + j) n), (Nat.ltb_spec (i + j) (n - 1)); auto; try lia.
        exfalso. assert (X' : existsb (fun r => keqb (fst r) (nth i os 0%Z, nth j ds 0%Z))
          (map (fun i => mkrec (nth i os 0%Z) (nth (n - 1 - i) ds 0%Z) (Fin (C i (n - 1 - i)))) (seq 0 n)) = true).
        { apply existsb_exists. exists (mkrec (nth i os 0%Z) (nth (n - 1 - i) ds 0%Z) (Fin (C i (n - 1 - i)))). split.
          - apply in_map_iff. exists i. split; auto. apply in_seq. lia.
          - unfold keqb. cbn. replace (n - 1 - i) with j by lia. rewrite !Z.eqb_refl. auto. }
        congruence. }
    rewrite E. change (ncols m) with (length ds). change (nrows m) with (length os). rewrite Lo, Ld.
    assert (Kr : filter (fun i => existsb (fun j => negb (isnan (cell (mk n n (fun i j => if i + j <? n - 1 then Fin (C i j) else NaN)) i j))) (seq 0 n)) (seq 0 n) = seq 0 (n - 1)).
    { apply filter_seq_prefix; [lia|]. intros i Hi. apply eq_true_iff_eq. rewrite existsb_seq, Nat.ltb_lt. split.
      - intros (j & Hj & Q). rewrite cell_mk in Q by lia. destruct (Nat.ltb_spec (i + j) (n - 1)); [lia|discriminate].
      - intro L. exists 0. split; [lia|]. rewrite cell_mk by lia. rewrite ltb_if by lia. auto. }
    rewrite Kr.
    assert (Kc : filter (fun j => existsb (fun i => negb (isnan (cell (mk n n (fun i j => if i + j <? n - 1 then Fin (C i j) else NaN)) i j))) (seq 0 (n - 1))) (seq 0 n) = seq 0 (n - 1)).
    { apply filter_seq_prefix; [lia|]. intros i Hi. apply eq_true_iff_eq. rewrite existsb_seq, Nat.ltb_lt. split.
      - intros (j & Hj & Q). rewrite cell_mk in Q by lia. destruct (Nat.ltb_spec (j + i) (n - 1)); [lia|discriminate].
      - intro L. exists 0. split; [lia|]. rewrite cell_mk by lia. rewrite ltb_if by lia. auto. }
    rewrite Kc. cbn [m rmat m_idx m_cols]. rewrite !firstn_map_nth by lia. unfold rmat. f_equal.
    unfold mk at 2. apply map_seq_ext. intros i Hi. apply map_seq_ext. intros j Hj. rewrite cell_mk by lia. auto.
  Qed.

  Lemma r_a2aM : a2a m = rmat os' ds' (n - 1) link.
  Proof. unfold m, os', ds'. apply r_a2a; auto. lia. Qed.

  Definition wv (i j : nat) : val :=
    if (i + j <? n - 1) && negb (qceqb (W i j) 0) then Fin (W i j) else NaN.
  Lemma r_mod_a2aind : mod_a2aind m ind = mkMat os' ds' (mk (n - 1) (n - 1) wv).
  Proof.
    unfold mod_a2aind. rewrite r_a2aM. unfold rmat. cbn [m_idx m_cols]. f_equal.
    unfold nrows, ncols. cbn [m_idx m_cols]. rewrite os'_len, ds'_len. apply mk_ext. intros i j Hi Hj.
    rewrite Hind by lia. unfold wv, veqb. destruct (Nat.ltb_spec (i + j) (n - 1)); simpl.
    - destruct (qceqb (W i j) 0); auto.
    - auto.
  Qed.

  (** Weighted powers of the losses. *)
  Definition wq (i j : nat) : Qc := (W i j * C i j ^ al)%Qc.
  Definition D (j : nat) : Qc := sumf 0 (n - 1 - j) (fun i => wq i j).
  Lemma D_pos j : j < n - 1 -> (0 < D j)%Qc.
  Proof.
    intro Hj. destruct (Wcol j Hj) as (i & Hi & Wp). unfold D.
    replace (n - 1 - j) with (i + S (n - 2 - j - i)) by lia. rewrite sumf_split, sumf_Sl.
    assert (P : forall i, i + j < n - 1 -> (0 <= wq i j)%Qc).
    { intros i' Hi'. apply qc_mul_nonneg; [apply Wnn; auto|]. apply Qclt_le_weak, qpow_pos, Pos. lia. }
    assert (A : (0 <= sumf 0 i (fun i => wq i j))%Qc) by (apply sumf_nonneg; intros; apply P; lia).
    assert (B : (0 <= sumf (S (0 + i)) (n - 2 - j - i) (fun i => wq i j))%Qc) by (apply sumf_nonneg; intros; apply P; lia).
    assert (E : (0 < wq (0 + i) j)%Qc).
    { apply qc_mul_pos; [exact Wp|]. apply qpow_pos, Pos. lia. }
    clear - A B E. revert A B E. generalize (sumf 0 i (fun i => wq i j)) (sumf (S (0 + i)) (n - 2 - j - i) (fun i => wq i j)) (wq (0 + i) j).
    intros. qlra.
  Qed.

  Definition Cv (i j : nat) : val := vpow (rc (n - 1) C i j) al.
  Lemma wv_cases i j : i + j < n - 1 -> wv i j = Fin (W i j) \/ (wv i j = NaN /\ W i j = 0%Qc).
  Proof.
    intro L. unfold wv. apply Nat.ltb_lt in L. rewrite L. simpl. destruct (qceqb_spec (W i j) 0); simpl; auto.
  Qed.
  Lemma wv_out i j : n - 1 <= i + j -> wv i j = NaN.
  Proof. intro L. unfold wv. apply Nat.ltb_ge in L. rewrite L. auto. Qed.
  Lemma Cv_in i j : i + j < n - 1 -> Cv i j = Fin (C i j ^ al)%Qc.
  Proof. intro L. unfold Cv, rc. rewrite ltb_if by auto. apply vpow_fin. Qed.

  Lemma den_sum j : j < n - 1 -> skipsum (map (fun i => vmul (wv i j) (Cv i j)) (seq 0 (n - 1))) = Fin (D j).
  Proof.
    intro Hj. apply skipsum_tri; [lia| |].
    - intros i Hi. rewrite Cv_in by lia. unfold wq. destruct (wv_cases i j) as [->|[-> ->]]; [lia| |].
      + left. auto.
      + right. split; auto. ring.
    - intros i Hi. rewrite wv_out by lia. apply vmul_nan_l.
  Qed.

  Definition mf (j : nat) : Qc :=
    if S j <? n then (sumf 0 (n - 1 - j) (fun i => wq i j * link i j) / D j)%Qc else 1%Qc.

  Lemma r_mack_ldfs v : mack_ldfs (mkTri m "origin" "dev" v) ind al (Fin 1%Qc) = Ok (fser ds n mf).
  Proof.
    unfold mack_ldfs. rewrite r_mod_tri. cbn [bind t_mat]. unfold wC. rewrite r_mod_a2aind, r_a2aM. unfold rmat.
    rewrite fmap_mk. rewrite !falign_mk by (auto using os'_nd, ds'_nd, os'_len, ds'_len).
    assert (I := increment_ev ds n Ld Hn Ev). assert (Zm := zmax_firstn ds n Ld ltac:(lia) Sd). fold ds' in I, Zm.
    cbn [m_cols]. rewrite I. cbn [bind]. rewrite Zm. f_equal.
    replace (nth (n - 2) ds 0 + (nth (n - 1) ds 0 - nth (n - 2) ds 0))%Z with (nth (n - 1) ds 0%Z) by lia.
    rewrite !colsums_mk by (auto using os'_len, ds'_len). rewrite combine_map_lr, map_map. cbn [fst snd].
    assert (E' : ds' = map (fun i => nth i ds 0%Z) (seq 0 (n - 1))) by (unfold ds'; rewrite <- firstn_map_nth by lia; auto).
    rewrite E', combine_map_lr. rewrite sset_append.
    - unfold fser. assert (Er : seq 0 n = seq 0 (n - 1) ++ [n - 1])
          by (replace n with (S (n - 1)) at 1 by lia; rewrite seq_S; auto).
      rewrite Er, map_app. cbn [map]. f_equal.
      + apply map_seq_ext. intros j Hj. f_equal. unfold mf. rewrite ltb_if by lia.
        assert (Dn := den_sum j ltac:(lia)). unfold Cv in Dn. rewrite Dn.
        rewrite (skipsum_tri (n - 1) (n - 1 - j) _ (fun i => wq i j * link i j)%Qc); [|lia| |].
        * apply vdiv_fin, qc_pos_neq, D_pos. lia.
        * intros i Hi. assert (K := Cv_in i j ltac:(lia)). unfold Cv in K. rewrite K. clear K.
          unfold rc. rewrite ltb_if by lia. unfold wq. destruct (wv_cases i j) as [->|[-> ->]]; [lia| |].
          -- left. simpl. f_equal. ring.
          -- right. split; auto. ring.
        * intros i Hi. unfold rc at 1. rewrite nltb_if by lia. rewrite !vmul_nan_l. auto.
      + do 3 f_equal. unfold mf. rewrite nltb_if by lia. auto.
    - rewrite map_map. cbn. intro Q. apply in_map_iff in Q as (i & E & Hi). apply in_seq in Hi.
      assert (Dd := zsorted_nth ds i (n - 1) 0%Z Sd). rewrite Ld in Dd. specialize (Dd ltac:(lia)). lia.
  Qed.

  Lemma mf_pos j : (0 < mf j)%Qc.
  Proof.
    unfold mf. destruct (Nat.ltb_spec (S j) n) as [L|L]; [|apply qc_0_lt_1].
    apply qc_div_pos; [|apply D_pos; lia]. destruct (Wcol j) as (i & Hi & Wp); [lia|].
    assert (Dp := D_pos j ltac:(lia)).
    replace (n - 1 - j) with (i + S (n - 2 - j - i)) by lia. rewrite sumf_split, sumf_Sl.
    assert (P : forall i, i + j < n - 1 -> (0 <= wq i j * link i j)%Qc).
    { intros i' Hi'. apply qc_mul_nonneg.
      - apply qc_mul_nonneg; [apply Wnn; auto|]. apply Qclt_le_weak, qpow_pos, Pos. lia.
      - apply Qclt_le_weak, qc_div_pos; apply Pos; lia. }
    assert (A : (0 <= sumf 0 i (fun i => wq i j * link i j))%Qc) by (apply sumf_nonneg; intros; apply P; lia).
    assert (B : (0 <= sumf (S (0 + i)) (n - 2 - j - i) (fun i => wq i j * link i j))%Qc) by (apply sumf_nonneg; intros; apply P; lia).
    assert (E : (0 < wq (0 + i) j * link (0 + i) j)%Qc).
    { apply qc_mul_pos; [apply qc_mul_pos; [exact Wp|apply qpow_pos, Pos; lia]|apply qc_div_pos; apply Pos; lia]. }
    clear - A B E. revert A B E.
    generalize (sumf 0 i (fun i => wq i j * link i j)%Qc) (sumf (S (0 + i)) (n - 2 - j - i) (fun i => wq i j * link i j)%Qc)
      (wq (0 + i) j * link (0 + i) j)%Qc.
    intros. qlra.
  Qed.

  (** ** Variances *)

  Variable f : nat -> Qc.
  Definition s2 (j : nat) : Qc :=
    (sumf 0 (n - 1 - j) (fun i => wq i j * ((link i j - f j) * (link i j - f j))) / qn (n - 2 - j))%Qc.

  Lemma d_nth_look (h : nat -> val) j : j < n -> slookup (map (fun k => (nth k ds 0%Z, h k)) (seq 0 n)) (nth j ds 0%Z) = h j.
  Proof.
    intro Hj. apply (slookup_map (fun k => nth k ds 0%Z)); [|apply in_seq; lia].
    rewrite <- Ld, map_nth_seq. apply zsorted_nodup; auto.
  Qed.

  Lemma r_devp_cell v j : j < n - 2 ->
    devp_cell (mkTri m "origin" "dev" v) (rmat os' ds' (n - 1) C) ind (fser ds n f) al j (nth j ds 0%Z) = Ok (Fin (s2 j)).
  Proof.
    intro Hj. unfold devp_cell. cbn [t_mat]. rewrite r_mod_a2aind, r_a2aM. unfold rmat.
    rewrite <- (ds'_nth j) by lia.
    rewrite !fcol_mk by (auto using ds'_nd, os'_len, ds'_len; lia). cbn [bind].
    rewrite !smap_map. rewrite !salign_map by (auto using os'_nd, os'_len). rewrite map_map. cbn [snd].
    rewrite ds'_nth by lia. unfold fser. rewrite (d_nth_look (fun j => Fin (f j))) by lia.
    f_equal. rewrite (skipsum_tri (n - 1) (n - 1 - j) _ (fun i => wq i j * ((link i j - f j) * (link i j - f j)))%Qc); [|lia| |].
    - change (nrows m) with (length os). rewrite Lo. unfold s2.
      replace (Z.of_nat n - Z.of_nat j - 2)%Z with (Z.of_nat (n - 2 - j)) by lia.
      apply vdiv_fin. apply qc_pos_neq, qn_pos. lia.
    - intros i Hi. assert (K := Cv_in i j ltac:(lia)). unfold Cv in K. rewrite K. clear K.
      unfold rc. rewrite ltb_if by lia. rewrite vsub_fin, vpow_fin, qpow2. unfold wq.
      destruct (wv_cases i j) as [->|[-> ->]]; [lia| |].
      + left. simpl. f_equal. 
      + right. split; auto. ring.
    - intros i Hi. rewrite wv_out by lia. rewrite !vmul_nan_l. auto.
  Qed.

  Lemma sset_map (a : nat -> Z) (u : nat -> val) l k x : NoDup (map a l) -> In k l ->
    sset (map (fun j => (a j, u j)) l) (a k) x = map (fun j => (a j, if j =? k then x else u j)) l.
  Proof.
    induction l as [|i l IH]; simpl; intros N H; [contradiction|]. inversion N; subst.
    destruct (Nat.eqb_spec i k) as [->|E].
    - rewrite Z.eqb_refl. f_equal. apply map_ext_in. intros j Hj. destruct (Nat.eqb_spec j k) as [->|]; auto.
      exfalso. apply H2. apply in_map; auto.
    - destruct H as [->|H]; [congruence|]. destruct (Z.eqb_spec (a i) (a k)) as [E'|E'].
      + exfalso. apply H2. rewrite E'. apply in_map; auto.
      + f_equal. apply IH; auto.
  Qed.
  Lemma fold_sset (a : nat -> Z) (v : nat -> val) N k : NoDup (map a (seq 0 N)) -> k <= N ->
    fold_left (fun s p => sset s (fst p) (snd p)) (map (fun j => (a j, v j)) (seq 0 k)) (map (fun j => (a j, NaN)) (seq 0 N))
    = map (fun j => (a j, if j <? k then v j else NaN)) (seq 0 N).
  Proof.
    intro Nd. induction k as [|k IH]; intro L.
    - cbn [seq map fold_left]. auto.
    - rewrite seq_S, map_app, fold_left_app, IH by lia. cbn [map fold_left fst snd].
      rewrite (sset_map a (fun j => if j <? k then v j else NaN)); auto; [|apply in_seq; lia].
      apply map_ext. intro j. f_equal. cbn [plus].
      destruct (Nat.eqb_spec j k) as [->|E].
      + rewrite ltb_if by lia. auto.
      + destruct (Nat.ltb_spec j k), (Nat.ltb_spec j (S k)); auto; lia.
  Qed.

  Lemma ds'_eq : ds' = map (fun i => nth i ds 0%Z) (seq 0 (n - 1)).
  Proof. unfold ds'. rewrite <- firstn_map_nth by lia. auto. Qed.
  Lemma ds'_nd' : NoDup (map (fun i => nth i ds 0%Z) (seq 0 (n - 1))).
  Proof. rewrite <- ds'_eq. apply ds'_nd. Qed.

  Hypothesis Hn4 : 3 < n.
  Definition lastv : val :=
    vmin2 (vdiv (Fin (s2 (n - 3) * s2 (n - 3))) (Fin (s2 (n - 4)))) (vmin2 (Fin (s2 (n - 3))) (Fin (s2 (n - 4)))).
  Definition dvv (j : nat) : val := if j <? n - 2 then Fin (s2 j) else lastv.

  Lemma r_devp_variance v : devp_variance (mkTri m "origin" "dev" v) ind (fser ds n f) al
    = Ok (map (fun j => (nth j ds 0%Z, dvv j)) (seq 0 (n - 1))).
  Proof.
    unfold devp_variance. rewrite r_mod_tri. cbn [bind t_mat]. change (ncols m) with (length ds). rewrite Ld.
    change (m_cols m) with ds.
    assert (E1 : firstn (n - 2) ds = map (fun i => nth i ds 0%Z) (seq 0 (n - 2))) by (rewrite <- firstn_map_nth by lia; auto).
    rewrite E1. rewrite map_length, seq_length.
    assert (E2 : combine (seq 0 (n - 2)) (map (fun i => nth i ds 0%Z) (seq 0 (n - 2))) = map (fun i => (i, nth i ds 0%Z)) (seq 0 (n - 2))).
    { rewrite <- (map_id (seq 0 (n - 2))) at 1. apply combine_map_lr. }
    rewrite E2. rewrite (mapM_map _ (fun i => (i, nth i ds 0%Z)) (fun j => Fin (s2 j))).
    2:{ intros j Hj. apply in_seq in Hj. cbn [fst snd]. apply r_devp_cell. lia. }
    cbn [bind]. rewrite combine_map_lr.
    assert (E3 : map fst (removelast (fser ds n f)) = map (fun i => nth i ds 0%Z) (seq 0 (n - 1))).
    { unfold fser. assert (Er : seq 0 n = seq 0 (n - 1) ++ [n - 1])
          by (replace n with (S (n - 1)) at 1 by lia; rewrite seq_S; auto).
      rewrite Er, map_app. cbn [map]. rewrite removelast_last, map_map. auto. }
    rewrite E3, map_map. rewrite (fold_sset (fun i => nth i ds 0%Z) (fun j => Fin (s2 j))) by (auto using ds'_nd'; lia).
    rewrite map_length, seq_length. rewrite nltb_if by lia.
    rewrite !(nth_map_seq _ _ _ (0%Z, NaN)) by lia. cbn [snd plus].
    replace (n - 1 - 2) with (n - 3) by lia. replace (n - 1 - 3) with (n - 4) by lia.
    rewrite !ltb_if by lia. rewrite last_map_seq by lia. cbn [fst]. unfold set_last. f_equal.
    assert (Er : seq 0 (n - 1) = seq 0 (n - 2) ++ [n - 2])
          by (replace (n - 1) with (S (n - 2)) at 1 by lia; rewrite seq_S; auto).
    rewrite Er, !map_app. cbn [map]. rewrite removelast_last. f_equal.
    - apply map_seq_ext. intros j Hj. unfold dvv. rewrite !ltb_if by lia. auto.
    - replace (n - 1 - 1) with (n - 2) by lia. do 2 f_equal. unfold dvv, lastv. rewrite nltb_if by lia.
      rewrite vpow_fin, qpow2. auto.
  Qed.

  Lemma dv_look (u : nat -> val) j : j < n - 1 -> slookup (map (fun j => (nth j ds 0%Z, u j)) (seq 0 (n - 1))) (nth j ds 0%Z) = u j.
  Proof. intro Hj. apply (slookup_map (fun k => nth k ds 0%Z)); [apply ds'_nd'|apply in_seq; lia]. Qed.

  Lemma r_ldf_variance v (u : nat -> val) :
    ldf_variance (mkTri m "origin" "dev" v) ind (map (fun j => (nth j ds 0%Z, u j)) (seq 0 (n - 1))) al
    = Ok (map (fun j => (nth j ds 0%Z, vdiv (u j) (Fin (D j)))) (seq 0 (n - 1))).
  Proof.
    unfold ldf_variance. rewrite r_mod_tri. cbn [bind t_mat]. rewrite r_mod_a2aind. unfold rmat. cbn [m_cols].
    assert (Q : mapM (fun d : Z =>
       do w <- fcol (mkMat os' ds' (mk (n - 1) (n - 1) wv)) d ;
       do c <- fcol (mkMat os' ds' (mk (n - 1) (n - 1) (rc (n - 1) C))) d ;
       Ok (d, vdiv (slookup (map (fun j => (nth j ds 0%Z, u j)) (seq 0 (n - 1))) d)
                (skipsum (map snd (salign vmul w (smap (fun v0 => vpow v0 al) c)))))) ds'
      = Ok (map (fun j => (nth j ds 0%Z, vdiv (u j) (Fin (D j)))) (seq 0 (n - 1)))).
    { etransitivity; [exact (f_equal (mapM _) ds'_eq)|]. apply mapM_map. intros j Hj. apply in_seq in Hj. rewrite dv_look by lia.
      rewrite <- (ds'_nth j) by lia.
      rewrite !fcol_mk by (auto using ds'_nd, os'_len, ds'_len; lia). cbn [bind].
      rewrite smap_map. rewrite salign_map by (auto using os'_nd, os'_len). rewrite map_map. cbn [snd].
      assert (Dn := den_sum j ltac:(lia)). unfold Cv in Dn. rewrite Dn. auto. }
    rewrite Q. cbn [bind]. f_equal. rewrite map_map. cbn [fst].
    rewrite (fold_sset (fun i => nth i ds 0%Z)) by (auto using ds'_nd'; lia).
    apply map_seq_ext. intros j Hj. rewrite ltb_if by lia. auto.
  Qed.
End Mack.
