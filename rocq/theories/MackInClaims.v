(** Proofs of C78 for mack_cl and of C90: indicators of cells without a link ratio. *)

From Coq Require Import String QArith Qcanon ZArith List Bool Lia Sorting.Sorted Permutation.
From Verif Require Import Val Frame Triangle A2A Base Mack State SpecState ListLib QcLib Spec BuildFacts RegFacts MackFacts TriClaims4
  AvgFacts AvgClaims2 BaseClaims AcceptClaims Enlarge EnlargeClaims PlotClaims MackW MackWClaims.
Import ListNotations.
Open Scope string_scope.
Open Scope list_scope.
Open Scope nat_scope.

Lemma fmap_get_nan g a o d : g NaN = NaN -> mget (fmap g a) o d = g (mget a o d).
Proof.
  intro G. unfold mget, cell_at, fmap. cbn [m_idx m_cols m_cells].
  destruct (zfind o (m_idx a)) as [i|]; [|auto]. destruct (zfind d (m_cols a)) as [j|]; [|auto].
  unfold cell. change (@nil val) with (map g []) at 1. rewrite (map_nth (map g)). rewrite <- G at 1. apply map_nth.
Qed.
Lemma zero_nan_nan : zero_nan NaN = NaN. Proof. reflexivity. Qed.

Lemma after_cols m l : (forall a, In a l -> In (snd (fst a)) (m_cols (a2a m))) -> m_cols (frame_after m l) = m_cols (a2a m).
Proof.
  induction l as [|a l IH] using rev_ind; intro H; auto. unfold frame_after. rewrite fold_left_app. cbn [fold_left].
  change (fold_left (fun F a => frame_at F (fst (fst a)) (snd (fst a)) (snd a)) l (ind_frame m)) with (frame_after m l).
  cbn [frame_at m_cols]. rewrite IH by (intros; apply H; apply in_app_iff; auto). unfold zadd.
  replace (zmem (snd (fst a)) (m_cols (a2a m))) with true; auto. symmetry. apply zmem_in, H, in_app_iff. simpl. auto.
Qed.

Section R.
  Variables (m : lmat) (n : nat) (C : nat -> nat -> Qc).
  Hypothesis R : regular m n C.
  Hypothesis P : positive n C.
  Hypothesis Hn : 2 < n.
  Variable v : string.
  Notation t := (mkTri m "origin" "dev" v).
  Notation I := (m_idx (a2a m)).
  Notation A := (m_cols (a2a m)).

  Let So : zsorted (m_idx m). Proof. apply (regular_rmat m n C R). Qed.
  Let Sd : zsorted (m_cols m). Proof. apply (regular_rmat m n C R). Qed.
  Let Lo : List.length (m_idx m) = n. Proof. apply (regular_rmat m n C R). Qed.
  Let Ld : List.length (m_cols m) = n. Proof. apply (regular_rmat m n C R). Qed.
  Let Em : m = rmat (m_idx m) (m_cols m) n C. Proof. apply (regular_rmat m n C R). Qed.

  Definition Cm : lmat := rmat (firstn (n - 1) (m_idx m)) (firstn (n - 1) (m_cols m)) (n - 1) C.
  Lemma Cm_ok : mod_tri t = Ok Cm.
  Proof. rewrite Em at 1. apply r_mod_tri; auto. Qed.
  Lemma a2a_eq : a2a m = rmat (firstn (n - 1) (m_idx m)) (firstn (n - 1) (m_cols m)) (n - 1) (link C).
  Proof. rewrite Em at 1. apply r_a2aM; auto. Qed.
  Lemma I_eq : I = firstn (n - 1) (m_idx m). Proof. rewrite a2a_eq. auto. Qed.
  Lemma A_eq : A = firstn (n - 1) (m_cols m). Proof. rewrite a2a_eq. auto. Qed.
  Lemma I_len : List.length I = n - 1. Proof. rewrite I_eq, firstn_length. lia. Qed.
  Lemma A_len : List.length A = n - 1. Proof. rewrite A_eq, firstn_length. lia. Qed.
  Lemma I_sort : zsorted I. Proof. rewrite I_eq. apply zsorted_firstn; auto. Qed.
  Lemma A_sort : zsorted A. Proof. rewrite A_eq. apply zsorted_firstn; auto. Qed.

  Lemma rmat_get D i j : i < n - 1 -> j < n - 1 ->
    mget (rmat (firstn (n - 1) (m_idx m)) (firstn (n - 1) (m_cols m)) (n - 1) D) (nth i I 0%Z) (nth j A 0%Z) = rc (n - 1) D i j.
  Proof.
    intros Hi Hj. rewrite I_eq, A_eq. unfold mget, rmat. rewrite cell_at_nth.
    - apply cell_mk; auto.
    - rewrite <- I_eq. apply zsorted_nodup, I_sort.
    - rewrite <- A_eq. apply zsorted_nodup, A_sort.
    - rewrite firstn_length. lia.
    - rewrite firstn_length. lia.
  Qed.

  Lemma in_I o : In o I -> exists i, i < n - 1 /\ o = nth i I 0%Z.
  Proof. intro H. destruct (In_nth _ _ 0%Z H) as (i & Hi & <-). rewrite I_len in Hi. eauto. Qed.
  Lemma in_A d : In d A -> exists j, j < n - 1 /\ d = nth j A 0%Z.
  Proof. intro H. destruct (In_nth _ _ 0%Z H) as (i & Hi & <-). rewrite A_len in Hi. eauto. Qed.

  Lemma Dev d : In d (firstn (ncols m - 2) (m_cols m)) -> In d A.
  Proof.
    rewrite A_eq. unfold ncols. rewrite Ld. intro H.
    replace (firstn (n - 1) (m_cols m)) with (firstn (n - 2) (m_cols m) ++ firstn 1 (skipn (n - 2) (m_cols m))).
    - apply in_app_iff. auto.
    - rewrite <- (firstn_skipn (n - 2) (m_cols m)) at 3. rewrite firstn_app, firstn_firstn, firstn_length, Ld.
      replace (Nat.min (n - 1) (n - 2)) with (n - 2) by lia. replace (n - 1 - Nat.min (n - 2) n) with 1 by lia. auto.
  Qed.

  Lemma same al W1 W2 : covers m W1 -> covers m W2 ->
    (forall i j, i < n - 1 -> j < n - 1 ->
       vmul (mget W1 (nth i I 0%Z) (nth j A 0%Z)) (vpow (rc (n - 1) C i j) al)
       = vmul (mget W2 (nth i I 0%Z) (nth j A 0%Z)) (vpow (rc (n - 1) C i j) al) /\
       (i + j < n - 1 -> mget W1 (nth i I 0%Z) (nth j A 0%Z) = mget W2 (nth i I 0%Z) (nth j A 0%Z))) ->
    forall cl tail, mack_cl_w t cl W1 al tail = mack_cl_w t cl W2 al tail.
  Proof.
    intros G1 G2 H cl tail.
    assert (Gp : forall i j, i < n - 1 -> j < n - 1 ->
      mget (fmap (fun v => vpow v al) Cm) (nth i I 0%Z) (nth j A 0%Z) = vpow (rc (n - 1) C i j) al).
    { intros i j Hi Hj. rewrite fmap_get.
      - f_equal. apply rmat_get; auto.
      - change (m_idx Cm) with (firstn (n - 1) (m_idx m)). rewrite <- I_eq. apply nth_In. rewrite I_len. auto.
      - change (m_cols Cm) with (firstn (n - 1) (m_cols m)). rewrite <- A_eq. apply nth_In. rewrite A_len. auto.
      - unfold Cm, rmat, nrows, mk. cbn [m_cells m_idx]. rewrite map_length, seq_length, firstn_length. lia.
      - intros r Hr. unfold Cm, rmat, mk in *. cbn [m_cells] in Hr. apply in_map_iff in Hr as (k & <- & _).
        unfold ncols. cbn [m_cols]. rewrite map_length, seq_length, firstn_length. lia. }
    apply (same_mack m v Cm); auto.
    - apply Cm_ok.
    - symmetry. apply I_eq.
    - symmetry. apply A_eq.
    - unfold Cm, rmat, nrows, mk. cbn [m_cells m_idx]. rewrite map_length, seq_length, firstn_length. lia.
    - intros r Hr. unfold Cm, rmat, mk in *. cbn [m_cells] in Hr. apply in_map_iff in Hr as (k & <- & _).
      unfold ncols. cbn [m_cols]. rewrite map_length, seq_length, firstn_length. lia.
    - apply I_sort.
    - apply A_sort.
    - apply Dev.
    - intros o d Ho Hd. apply in_I in Ho as (i & Hi & ->). apply in_A in Hd as (j & Hj & ->). rewrite Gp by auto. apply H; auto.
    - intros o d Ho Hd. apply in_I in Ho as (i & Hi & ->). apply in_A in Hd as (j & Hj & ->). rewrite Gp by auto.
      destruct (Nat.ltb_spec (i + j) (n - 1)) as [L|L].
      + destruct (H i j Hi Hj) as (_ & ->); auto.
      + assert (E : mget (a2a m) (nth i I 0%Z) (nth j A 0%Z) = NaN).
        { transitivity (rc (n - 1) (link C) i j); [|unfold rc; apply nltb_if; auto].
          rewrite <- (rmat_get (link C)) by auto. rewrite <- a2a_eq. auto. }
        rewrite E, !vmul_nan_l. auto.
  Qed.

  Lemma mod_get ind i j : i < n - 1 -> j < n - 1 ->
    mget (mod_a2aind m ind) (nth i I 0%Z) (nth j A 0%Z) = zero_nan (cell ind i j).
  Proof.
    intros Hi Hj. unfold mget, mod_a2aind. rewrite cell_at_nth.
    - unfold nrows, ncols. rewrite I_len, A_len. rewrite cell_mk by auto. auto.
    - apply zsorted_nodup, I_sort.
    - apply zsorted_nodup, A_sort.
    - rewrite I_len. auto.
    - rewrite A_len. auto.
  Qed.
  Lemma mod_covers ind : covers m (mod_a2aind m ind).
  Proof. split; [reflexivity|]. split; [apply zsorted_nodup, I_sort|]. intros o H. exact H. Qed.

  Lemma c78_mack l ind cl al tail :
    (forall a, In a l -> In (snd (fst a)) A) ->
    (forall i j, i < List.length I -> j < List.length A ->
       nth j (nth i ind []) NaN = match last_value l (nth i I 0%Z) (nth j A 0%Z) with
                                  | Some v => v | None => nth j (nth i (a2aind_init m) []) NaN end) ->
    mack_cl_in t cl (frame_after m l) al tail = mack_cl t cl ind al tail.
  Proof.
    intros Hl Hind. rewrite mack_cl_w_eq. unfold mack_cl_in. cbn [t_mat].
    destruct (after_inv m So Sd l) as (N1 & N2 & H1 & H2 & H3).
    assert (G : covers m (fmap zero_nan (frame_after m l))).
    { split; [apply after_cols; auto|]. split; [exact N1|]. intros o Ho. apply H1. auto. }
    assert (E : forall i j, i < n - 1 -> j < n - 1 -> mget (fmap zero_nan (frame_after m l)) (nth i I 0%Z) (nth j A 0%Z)
      = mget (mod_a2aind m ind) (nth i I 0%Z) (nth j A 0%Z)).
    { intros i j Hi Hj. rewrite mod_get by auto. rewrite fmap_get_nan by reflexivity. f_equal. rewrite H3.
      unfold cell. rewrite Hind by (rewrite ?I_len, ?A_len; auto). destruct (last_value _ _ _); auto.
      apply init_get; auto; unfold nrows, ncols; rewrite ?I_len, ?A_len; auto. }
    apply same; auto using mod_covers. intros i j Hi Hj. rewrite E by auto. auto.
  Qed.

  Lemma c90_mack ind ind' cl al tail : 0 < al ->
    (forall i j, i + j < n - 1 -> nth j (nth i ind []) NaN = nth j (nth i ind' []) NaN) ->
    mack_cl t cl ind al tail = mack_cl t cl ind' al tail.
  Proof.
    intros Ha H. rewrite !mack_cl_w_eq. cbn [t_mat]. apply same; auto using mod_covers.
    intros i j Hi Hj. rewrite !mod_get by auto. split.
    - destruct (Nat.ltb_spec (i + j) (n - 1)) as [L|L].
      + unfold cell. rewrite H by auto. auto.
      + unfold rc. rewrite nltb_if by auto. destruct al as [|a]; [lia|]. cbn [vpow]. rewrite vmul_nan_l, !vmul_nan_r. auto.
    - intro L. unfold cell. rewrite H by auto. auto.
  Qed.
End R.

(** *** alpha = 0 *)
Section Zero.
  Variables (m : lmat) (n : nat) (C : nat -> nat -> Qc).
  Hypothesis R : regular m n C.
  Hypothesis P : positive n C.
  Hypothesis Hn : 2 < n.
  Hypothesis Ev : tail_fits (m_cols m).
  Variable v : string.
  Notation t := (mkTri m "origin" "dev" v).
  Variables (ind : list (list val)) (W : nat -> nat -> Qc).
  Hypothesis Wi : forall i j, i < n - 1 -> j < n - 1 -> nth j (nth i ind []) NaN = Fin (W i j).
  Hypothesis Wn : forall i j, i < n - 1 -> j < n - 1 -> (0 <= W i j)%Qc.
  Hypothesis Wc : forall j, j < n - 1 -> exists i, i + j < n - 1 /\ (0 < W i j)%Qc.

  Definition f0 (j : nat) : Qc :=
    (if S j <? n then sumf 0 (n - 1 - j) (fun i => W i j * (C i (S j) / C i j)) / sumf 0 (n - 1) (fun i => W i j) else 1)%Qc.

  Lemma den_pos j : j < n - 1 -> (0 < sumf 0 (n - 1) (fun i => W i j))%Qc.
  Proof.
    intro Hj. destruct (Wc j Hj) as (i & Hi & Wp).
    replace (n - 1) with (i + S (n - 2 - i)) by lia. rewrite sumf_split, sumf_Sl.
    assert (A : (0 <= sumf 0 i (fun i => W i j))%Qc) by (apply sumf_nonneg; intros; apply Wn; lia).
    assert (B : (0 <= sumf (S (0 + i)) (n - 2 - i) (fun i => W i j))%Qc) by (apply sumf_nonneg; intros; apply Wn; lia).
    assert (E : (0 < W (0 + i) j)%Qc) by exact Wp.
    clear - A B E. revert A B E. generalize (sumf 0 i (fun i => W i j)) (sumf (S (0 + i)) (n - 2 - i) (fun i => W i j)) (W (0 + i) j).
    intros. qlra.
  Qed.

  Definition zw (i j : nat) : val := zero_nan (Fin (W i j)).
  Lemma zw_cases i j : zw i j = Fin (W i j) \/ (zw i j = NaN /\ W i j = 0%Qc).
  Proof. unfold zw, zero_nan, veqb. destruct (qceqb_spec (W i j) 0); auto. Qed.

  Lemma ldfs_0 : mack_ldfs t ind 0 (Fin 1%Qc) = Ok (map (fun j => (nth j (m_cols m) 0%Z, Fin (f0 j))) (seq 0 n)).
  Proof.
    destruct (regular_rmat m n C R) as (Em & So & Sd & Lo & Ld).
    rewrite Em at 1. clear Em. set (os := m_idx m) in *. set (ds := m_cols m) in *.
    assert (Lo' : List.length (firstn (n - 1) os) = n - 1) by (rewrite firstn_length; lia).
    assert (Ld' : List.length (firstn (n - 1) ds) = n - 1) by (rewrite firstn_length; lia).
    assert (No : NoDup (firstn (n - 1) os)) by (apply zsorted_nodup, zsorted_firstn; auto).
    assert (Nd : NoDup (firstn (n - 1) ds)) by (apply zsorted_nodup, zsorted_firstn; auto).
    unfold mack_ldfs. rewrite r_mod_tri by auto. cbn [bind t_mat]. unfold wC.
    assert (Ew : mod_a2aind (rmat os ds n C) ind = mkMat (firstn (n - 1) os) (firstn (n - 1) ds) (mk (n - 1) (n - 1) zw)).
    { unfold mod_a2aind. rewrite r_a2aM by auto. unfold rmat, nrows, ncols. cbn [m_idx m_cols]. rewrite Lo', Ld'. f_equal.
      apply mk_ext. intros i j Hi Hj. unfold cell. rewrite Wi by auto. auto. }
    rewrite Ew, r_a2aM by auto. unfold rmat.
    rewrite fmap_mk. rewrite !falign_mk by auto.
    assert (Inc := increment_ev ds n Ld Hn Ev). assert (Zm := zmax_firstn ds n Ld ltac:(lia) Sd).
    cbn [m_cols]. rewrite Inc. cbn [bind]. rewrite Zm. f_equal.
    replace (nth (n - 2) ds 0 + (nth (n - 1) ds 0 - nth (n - 2) ds 0))%Z with (nth (n - 1) ds 0%Z) by lia.
    rewrite !colsums_mk by auto. rewrite combine_map_lr, map_map. cbn [fst snd].
    assert (E' : firstn (n - 1) ds = map (fun i => nth i ds 0%Z) (seq 0 (n - 1))) by (rewrite <- firstn_map_nth by lia; auto).
    rewrite E', combine_map_lr. rewrite sset_append.
    - assert (Er : seq 0 n = seq 0 (n - 1) ++ [n - 1])
          by (replace n with (S (n - 1)) at 1 by lia; rewrite seq_S; auto).
      rewrite Er, map_app. cbn [map]. f_equal.
      + apply map_seq_ext. intros j Hj. f_equal. unfold f0. rewrite ltb_if by lia. cbn [vpow].
        rewrite (skipsum_tri (n - 1) (n - 1 - j) _ (fun i => W i j * (C i (S j) / C i j))%Qc); [|lia| |].
        * rewrite (skipsum_tri (n - 1) (n - 1) _ (fun i => W i j)); [|lia| |intros; lia].
          -- apply vdiv_fin, qc_pos_neq, den_pos. lia.
          -- intros i Hi. destruct (zw_cases i j) as [->|[-> ->]]; [left; simpl; f_equal; ring|right; auto].
        * intros i Hi. unfold rc. rewrite ltb_if by lia. destruct (zw_cases i j) as [->|[-> ->]].
          -- left. simpl. f_equal. unfold link. ring.
          -- right. split; auto. ring.
        * intros i Hi. unfold rc at 1. rewrite nltb_if by lia. rewrite !vmul_nan_l. auto.
      + do 3 f_equal. unfold f0. rewrite nltb_if by lia. auto.
    - rewrite map_map. cbn. intro Q. apply in_map_iff in Q as (i & E & Hi). apply in_seq in Hi.
      assert (Dd := zsorted_nth ds i (n - 1) 0%Z Sd). rewrite Ld in Dd. specialize (Dd ltac:(lia)). lia.
  Qed.

  Lemma c90_alpha0 cl tail k : mack_cl t cl ind 0 tail = Ok k ->
    c_ldfs (k_cl k) = map (fun j => (nth j (m_cols m) 0%Z, Fin (f0 j))) (seq 0 n).
  Proof.
    unfold mack_cl. rewrite ldfs_0. cbn [bind]. unfold chain_ladder.
    intro H. repeat (match type of H with (bind ?x _ = _) => destruct x eqn:?; cbn [bind] in H; try discriminate end).
    match type of H with (if ?b then _ else _) = _ => destruct b; [discriminate|] end. injection H as <-.
    cbn [k_cl].
    match goal with H : bind _ _ = Ok _ |- _ => revert H end.
    intro H. repeat (match type of H with (bind ?x _ = _) => destruct x eqn:?; cbn [bind] in H; try discriminate end).
    injection H as <-. reflexivity.
  Qed.
End Zero.

(** *** The averages and base_cl *)
Lemma c90_avgs gm m ind ind' :
  (forall i j, i < nrows (a2a m) -> j < ncols (a2a m) -> cell (m_cells (a2a m)) i j <> NaN ->
     nth j (nth i ind []) NaN = nth j (nth i ind' []) NaN) ->
  a2a_avgs gm m ind = a2a_avgs gm m ind'.
Proof.
  intro H. assert (E : a2a_adj m ind = a2a_adj m ind').
  { unfold a2a_adj. f_equal. apply mk_ext. intros i j Hi Hj.
    destruct (cell (m_cells (a2a m)) i j) as [| | |q] eqn:Ec; try reflexivity;
      (change (cell ind i j) with (nth j (nth i ind []) NaN); rewrite (H i j Hi Hj) by (rewrite Ec; discriminate); reflexivity). }
  unfold a2a_avgs, one_avg. rewrite E. auto.
Qed.
Lemma c90_base gm m v cl ind ind' sel tail :
  (forall i j, i < nrows (a2a m) -> j < ncols (a2a m) -> cell (m_cells (a2a m)) i j <> NaN ->
     nth j (nth i ind []) NaN = nth j (nth i ind' []) NaN) ->
  a2a_avgs gm m ind = a2a_avgs gm m ind' /\
  base_cl gm (mkTri m "origin" "dev" v) cl ind sel tail = base_cl gm (mkTri m "origin" "dev" v) cl ind' sel tail.
Proof.
  intro H. assert (E := c90_avgs gm m ind ind' H). split; auto.
  unfold base_cl, select_ldfs, ldfs_of_label. cbn [t_mat]. rewrite E. auto.
Qed.

(** *** A period outside the link ratio table: mack_cl raises ValueError *)
Lemma nodup_more (l l' : list Z) d : NoDup l -> (forall x, In x l -> In x l') -> In d l' -> ~ In d l ->
  List.length l < List.length l'.
Proof.
  intros N Sub Hd Nd. change (List.length (d :: l) <= List.length l'). apply NoDup_incl_length.
  - constructor; auto.
  - intros x [<-|Hx]; auto.
Qed.

Section Out.
  Variables (m : lmat) (n : nat) (C : nat -> nat -> Qc).
  Hypothesis R : regular m n C.
  Hypothesis P : positive n C.
  Hypothesis Hn : 2 < n.

  Lemma c78_mack_out v l a cl al tail : In a l -> ~ In (snd (fst a)) (m_cols (a2a m)) ->
    mack_cl_in (mkTri m "origin" "dev" v) cl (frame_after m l) al tail = Err ValueError.
  Proof.
    intros Ha Na.
    destruct (regular_rmat m n C R) as (Em & So & Sd & Lo & Ld).
    destruct (after_inv m So Sd l) as (_ & N2 & _ & H2 & _). set (F := frame_after m l) in *.
    assert (Hd : In (snd (fst a)) (m_cols F)) by (apply H2; eauto).
    assert (SA := A_sort m n C R P Hn). assert (LA := A_len m n C R P Hn).
    assert (SubA : forall x, In x (m_cols (a2a m)) -> In x (m_cols F)) by (intros; apply H2; auto).
    assert (Kc : m_cols (Cm m n C) = m_cols (a2a m)) by (rewrite (A_eq m n C R P Hn); reflexivity).
    set (U := zunion (zunion (m_cols (a2a m)) (m_cols F)) (m_cols (a2a m))).
    assert (SU : increasing U) by (apply zunion_sorted, zunion_sorted; auto).
    assert (LU : n <= List.length U).
    { assert (Q := nodup_more (m_cols (a2a m)) U (snd (fst a))). rewrite LA in Q. unfold lt in Q.
      replace (S (n - 1)) with n in Q by lia. apply Q; auto.
      - apply zsorted_nodup; auto.
      - intros x Hx. unfold U. rewrite !zunion_in. auto.
      - unfold U. rewrite !zunion_in. auto. }
    destruct (increment_pos U SU ltac:(lia)) as (inc & Ei & Pi).
    unfold mack_cl_in, mack_cl_w, mack_ldfs_w. rewrite (Cm_ok m n C R Hn v). cbn [bind t_mat].
    set (num := falign vmul (falign vmul (a2a m) (fmap zero_nan F)) (fmap (fun w => vpow w al) (Cm m n C))).
    set (den := falign vmul (fmap zero_nan F) (fmap (fun w => vpow w al) (Cm m n C))).
    assert (En : m_cols num = U) by (unfold num, falign, fmap; cbn [m_cols]; rewrite Kc; reflexivity).
    assert (Ed : m_cols den = zunion (m_cols F) (m_cols (a2a m))) by (unfold den, falign, fmap; cbn [m_cols]; rewrite Kc; reflexivity).
    assert (Ee : List.length (m_cols den) = List.length U).
    { rewrite Ed. f_equal. apply zsorted_ext; auto; [apply zunion_sorted_r; auto|].
      intro x. unfold U. rewrite !zunion_in. tauto. }
    rewrite En, Ei. cbn [bind]. 
    set (q := map _ (combine (colsums num) (colsums den))).
    assert (Lq : List.length q = List.length U).
    { unfold q, colsums, ncols. rewrite map_length, combine_length, !map_length, !seq_length, Ee, En. lia. }
    rewrite sset_append.
    2:{ rewrite map_fst_comb by lia. intro Q. apply zmax_ge in Q. lia. }
    unfold chain_ladder, ultimates. rewrite Em at 1. rewrite r_latest_by_origin by (auto; lia). cbn [bind].
    set (cd := cldfs _).
    assert (Lc : List.length cd = S (List.length U)).
    { unfold cd. rewrite cldfs_len, app_length, combine_length, Lq. simpl. lia. }
    unfold bmul. rewrite rev_length, !map_length, seq_length, Lc.
    destruct (Nat.eqb_spec n (S (List.length U))) as [Q|_]; [lia|].
    assert (Lr : List.length (rev (map snd cd)) = S (List.length U)) by (rewrite rev_length, map_length; auto).
    destruct (rev (map snd cd)) as [|x [|y r]]; cbn [List.length] in Lr; try lia.
    destruct n as [|[|k]]; try lia. reflexivity.
  Qed.
End Out.
