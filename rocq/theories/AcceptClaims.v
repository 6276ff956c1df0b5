(** Proofs of C77: the triangles the chain ladder estimators accept. *)

From Coq Require Import String QArith Qcanon ZArith List Bool Lia Sorting.Sorted Permutation.
From Verif Require Import Val Frame Triangle A2A Base ListLib QcLib Spec FillFacts TotriFacts CumFacts AvgFacts TriClaims4 RegFacts BaseClaims AvgClaims2
  Mack MackFacts MackClaims MackClaims2 StateBuilt SpecAccept.
Import ListNotations.
Open Scope string_scope.
Open Scope list_scope.
Open Scope nat_scope.

Lemma ssort_len {A} (cmp : A -> A -> comparison) l : length (ssort cmp l) = length l.
Proof. apply Permutation_length, ssort_perm. Qed.

Lemma zsorted_picks ds p : zsorted ds -> zsorted (map (fun j => nth j ds 0%Z) (filter p (seq 0 (length ds)))).
Proof.
  intro H. assert (G : forall k a, a + k <= length ds -> zsorted (map (fun j => nth j ds 0%Z) (filter p (seq a k))) /\
    forall j, In j (filter p (seq a k)) -> a <= j < length ds).
  { induction k as [|k IH]; intros a L; [split; [constructor|intros j []]|].
    cbn [seq filter]. destruct (IH (S a) ltac:(lia)) as (I1 & I2). destruct (p a).
    - split.
      + cbn [map]. constructor; [exact I1|]. apply Forall_forall. intros x Hx. apply in_map_iff in Hx as (j & <- & Hj).
        specialize (I2 j Hj). apply zsorted_nth; auto.
      + intros j [<-|Hj]; [lia|]. specialize (I2 j Hj). lia.
    - split; auto. intros j Hj. specialize (I2 j Hj). lia. }
  apply G. lia.
Qed.

Lemma suffix_len l : length (suffix_prods l) = length l.
Proof.
  induction l as [|x l IH]; auto. simpl. destruct (suffix_prods l) eqn:E; simpl in *; lia.
Qed.
Lemma cldfs_len s : length (cldfs s) = length s.
Proof. unfold cldfs, zvsort. rewrite ssort_len, combine_length, suffix_len, !map_length. lia. Qed.

Lemma bmul_len a b p : bmul a b = Ok p -> length p = length a \/ length p = length b.
Proof.
  unfold bmul. destruct (Nat.eqb_spec (length a) (length b)) as [E|E].
  - intro H. injection H as <-. left. rewrite map_length, combine_length. lia.
  - destruct a as [|x [|y a]], b as [|z [|w b]]; intro H; try discriminate; injection H as <-; simpl in *; rewrite ?map_length; auto.
Qed.

Section T.
  Variables (m : lmat) (os ds : list Z) (f : Z -> Z -> val) (v : string) (cl : list nat).
  Hypothesis So : increasing os.
  Hypothesis Sd : increasing ds.
  Hypothesis Hh : holds m os ds f.
  Hypothesis Cv : forall o, In o os -> exists d, In d ds /\ f o d <> NaN.
  Hypothesis Hcl : clvi m = Ok cl.

  Let t := mkTri m "origin" "dev" v.

  Lemma nr_eq : nrows m = length os. Proof. unfold nrows. destruct Hh as (-> & _). auto. Qed.
  Lemma nc_eq : ncols m = length ds. Proof. unfold ncols. destruct Hh as (_ & -> & _). auto. Qed.

  Lemma lbo : exists l, latest_by_origin t = Ok l /\ length l = length os.
  Proof.
    destruct (c11 m os ds f v So Sd Hh Cv) as (l & _ & Ho & _ & Lb & _). eexists. split; [exact Lb|].
    rewrite map_length, <- Ho, map_length. auto.
  Qed.

  Lemma ult_ok cd : length cd = length os \/ length cd = 1 -> exists u, ultimates t cd = Ok u.
  Proof.
    destruct lbo as (l & E & L). intro H. unfold ultimates. rewrite E. cbn [bind]. unfold bmul.
    rewrite rev_length, !map_length, L. destruct (Nat.eqb_spec (length os) (length cd)) as [Q|Q].
    - cbn [bind]. rewrite map_length, combine_length, rev_length, !map_length, L, <- Q, Nat.min_id.
      unfold t. cbn [t_mat]. rewrite nr_eq, Nat.eqb_refl. eauto.
    - destruct H as [H|H]; [congruence|]. destruct cd as [|c [|c' cd]]; try discriminate.
      destruct l as [|x [|y l]]; simpl in L.
      + cbn [map rev app snd bind length]. unfold t. cbn [t_mat]. rewrite nr_eq, <- L. simpl. eauto.
      + simpl in Q. lia.
      + cbn [map rev app snd bind length]. rewrite !map_length.
        unfold t. cbn [t_mat]. rewrite nr_eq, <- L, Nat.eqb_refl. eauto.
  Qed.

  Lemma ult_err cd : length cd <> length os -> length cd <> 1 -> ultimates t cd = Err ValueError.
  Proof.
    destruct lbo as (l & E & L). intros H H1. unfold ultimates. rewrite E. cbn [bind]. unfold bmul.
    rewrite rev_length, !map_length, L. destruct (Nat.eqb_spec (length os) (length cd)) as [Q|Q]; [congruence|].
    assert (Lr : length (rev (map snd cd)) = length cd) by (rewrite rev_length, map_length; auto).
    destruct l as [|x [|y l]]; simpl in L.
    - cbn [map]. destruct (rev (map snd cd)) as [|a [|b r]]; simpl in Lr; try lia; auto.
    - cbn [map]. cbn [bind]. rewrite map_length, Lr. unfold t. cbn [t_mat]. rewrite nr_eq.
      destruct (Nat.eqb_spec (length cd) (length os)); [lia|auto].
    - cbn [map]. destruct (rev (map snd cd)) as [|a [|b r]]; simpl in Lr; try lia; auto.
  Qed.

  Lemma mat_ok : exists mt, maturity m (triind (nrows m) cl) = Ok mt.
  Proof.
    unfold maturity. apply mapM_total. intros row Hr.
    unfold triind, mk in Hr. apply in_map_iff in Hr as (i & <- & Hi). apply in_seq in Hi.
    rewrite nr_eq in Hi. destruct (Cv (nth i os 0%Z)) as (d & Hd & Nd); [apply nth_In; lia|].
    destruct (In_nth _ _ 0%Z Hd) as (j & Hj & Ej).
    assert (Hm := holds_mk _ _ _ _ Hh). assert (K := Hcl). rewrite Hm in K. unfold clvi, nrows, ncols in K. cbn [m_idx m_cols m_cells] in K.
    apply clvi_mk_inv in K as (Lc & K). destruct (K j Hj) as (K1 & K2 & K3).
    destruct (last_false _) as [k|] eqn:Q; [eauto|].
    exfalso. assert (G : forall l j, nth j l true = false -> last_false l <> None).
    { clear. induction l as [|b l IH]; intros j H; [destruct j; discriminate|].
      destruct j as [|j]; simpl in *.
      - subst. destruct (last_false l); discriminate.
      - specialize (IH j H). destruct (last_false l); congruence. }
    apply (G _ j) in Q; auto. rewrite Lc.
    rewrite nth_map_seq by auto. apply Nat.ltb_ge.
    destruct (Nat.le_gt_cases i (nth j cl 0)); auto. exfalso. apply Nd. rewrite <- Ej. apply K3. lia.
  Qed.

  Lemma sq_ok l : length l = ncols m -> 0 < ncols m -> exists s, trisqrd m cl l = Ok s.
  Proof.
    intros L P. unfold trisqrd, trisqrd_cols. rewrite L. destruct (Nat.ltb_spec (ncols m) (ncols m - 1)); [lia|].
    destruct (ncols m) as [|k]; [lia|]. cbn [seq map bind]. eauto.
  Qed.

  Lemma chain_ok ldfs tail : length ldfs = length ds -> 0 < length ds -> length os = length ds \/ length ds = 1 ->
    exists r, chain_ladder t cl ldfs tail = Ok r.
  Proof.
    intros L P H. destruct (ult_ok (cldfs ldfs)) as (u & U); [rewrite cldfs_len, L; destruct H; auto|].
    destruct lbo as (lb & Lb & _). destruct mat_ok as (mt & Mt).
    destruct (sq_ok (map snd ldfs)) as (s & Sq); [rewrite map_length, nc_eq; auto|rewrite nc_eq; auto|].
    unfold chain_ladder. rewrite U. cbn [bind]. unfold reserves. rewrite Lb. cbn [bind].
    change (t_mat t) with m. rewrite Mt. cbn [bind]. rewrite Sq. cbn [bind]. eauto.
  Qed.
  Lemma chain_err ldfs tail : length ldfs = length ds -> length os <> length ds -> length ds <> 1 ->
    chain_ladder t cl ldfs tail = Err ValueError.
  Proof. intros L H H1. unfold chain_ladder. rewrite ult_err; auto; rewrite cldfs_len; congruence. Qed.

  Lemma inc_ok (l : list Z) : 2 <= length l -> exists i, increment l = Ok i.
  Proof. destruct l as [|a [|b l]]; simpl; try lia. intros _. unfold increment. cbn [steps]. eauto. Qed.
  Lemma inc_pos (l : list Z) i : increasing l -> increment l = Ok i -> (0 < i)%Z.
  Proof.
    intros I Q. unfold increment in Q. destruct (steps l) as [|x s] eqn:Es; [discriminate|].
    assert (i = zmin (x :: s)) by congruence. subst i.
    apply (steps_pos l I). rewrite Es. apply zmin_in. discriminate.
  Qed.

  Lemma a2a_cols_sorted : increasing (m_cols (a2a m)).
  Proof.
    unfold a2a. cbn [m_cols]. unfold keep_cols. destruct Hh as (_ & Ec & _). rewrite Ec, nc_eq.
    apply zsorted_picks. auto.
  Qed.

  Lemma sel_ok gm ind avgs sel tail : a2a_avgs gm m ind = Ok avgs -> 0 < length ds ->
    length (m_cols (a2a m)) = length ds - 1 -> usable (map fst avgs) (length ds) sel ->
    exists sel' ldfs, select_ldfs gm m ind sel tail = (sel', Ok ldfs) /\ length ldfs = length ds.
  Proof.
    intros A P La U. destruct sel as [s|l|s]; simpl in U.
    - destruct U as (U & Pd). unfold select_ldfs, ldfs_of_label. rewrite A. cbn [bind].
      destruct (find _ avgs) as [row|] eqn:F.
      + destruct (inc_ok (m_cols (a2a m))) as (i & Ei); [lia|]. rewrite Ei. cbn [bind]. do 2 eexists. split; [reflexivity|].
        assert (Lr := a2a_avgs_row _ _ _ _ _ _ A F). unfold ncols in Lr.
        unfold zvsort. rewrite ssort_len, sset_append.
        * rewrite app_length, combine_length. cbn [length]. lia.
        * rewrite map_fst_combine by lia. intro H. apply zmax_ge in H. assert (Pi := inc_pos _ _ a2a_cols_sorted Ei). lia.
      + exfalso. apply in_map_iff in U as (p & E & Hp). apply (find_none _ _ F) in Hp. subst s. rewrite String.eqb_refl in Hp. discriminate.
    - unfold select_ldfs. rewrite nc_eq, app_length. cbn [length].
      destruct (Nat.eqb_spec (length l + 1) (length ds)); [|lia]. do 2 eexists. split; [reflexivity|].
      rewrite combine_length, app_length. destruct Hh as (_ & -> & _). cbn [length]. lia.
    - destruct U as (U & Pd). unfold select_ldfs. rewrite nc_eq, U, Nat.eqb_refl.
      destruct (inc_ok (map fst s)) as (i & ->); [rewrite map_length; lia|]. do 2 eexists. split; [reflexivity|].
      rewrite map_length. apply nc_eq.
  Qed.

  Lemma c77_base gm ind avgs sel tail : a2a_avgs gm m ind = Ok avgs -> 0 < length ds ->
    length (m_cols (a2a m)) = length ds - 1 -> usable (map fst avgs) (length ds) sel ->
    (length os = length ds \/ length ds = 1 -> exists r, snd (base_cl gm t cl ind sel tail) = Ok r) /\
    (length os <> length ds -> length ds <> 1 -> snd (base_cl gm t cl ind sel tail) = Err ValueError).
  Proof.
    intros A P La U. destruct (sel_ok gm ind avgs sel tail A P La U) as (sel' & ldfs & E & L).
    unfold base_cl, t. cbn [t_mat]. rewrite E. cbn [snd bind]. split.
    - intro H. apply chain_ok; auto.
    - intros. apply chain_err; auto.
  Qed.

  (** Lists and arrays of factors need no average. *)
  Lemma c77_list gm ind l tail : 0 < length ds -> length l = length ds - 1 ->
    (length os = length ds \/ length ds = 1 -> exists r, snd (base_cl gm t cl ind (SelSeq l) tail) = Ok r) /\
    (length os <> length ds -> length ds <> 1 -> snd (base_cl gm t cl ind (SelSeq l) tail) = Err ValueError).
  Proof.
    intros P L. unfold base_cl, select_ldfs, t. cbn [t_mat]. rewrite nc_eq, app_length. cbn [length].
    destruct (Nat.eqb_spec (length l + 1) (length ds)); [|lia]. cbn [snd bind].
    assert (Lc : length (combine (m_cols m) (l ++ [tail])) = length ds).
    { rewrite combine_length, app_length. destruct Hh as (_ & -> & _). cbn [length]. lia. }
    split.
    - intro H. apply chain_ok; auto.
    - intros. apply chain_err; auto.
  Qed.

  (** ** Mack *)

  Lemma cells_nth i j : i < length os -> j < length ds -> cell (m_cells m) i j = f (nth i os 0%Z) (nth j ds 0%Z).
  Proof. intros Hi Hj. destruct Hh as (_ & _ & _ & _ & H). apply H; auto. Qed.

  Lemma a2a_cols_eq : 0 < length ds -> length (m_cols (a2a m)) = length ds - 1 -> m_cols (a2a m) = firstn (length ds - 1) ds.
  Proof.
    intros P L. unfold a2a in *. cbn [m_cols] in *. rewrite map_length in L. unfold keep_cols in *.
    destruct Hh as (_ & Ec & _). rewrite Ec. rewrite nc_eq in *.
    set (p := fun j => existsb _ _) in *.
    assert (Er : seq 0 (length ds) = seq 0 (length ds - 1) ++ [length ds - 1])
      by (replace (length ds) with (S (length ds - 1)) at 1 by lia; rewrite seq_S; auto).
    assert (Np : p (length ds - 1) = false).
    { destruct (p _) eqn:Q; auto. exfalso. unfold p in Q. apply existsb_exists in Q as (i & Hi & Q).
      apply in_seq in Hi. unfold ratio_cells in Q. rewrite cell_mk in Q by (rewrite ?nc_eq; lia).
      rewrite nc_eq in Q. destruct (Nat.ltb_spec (S (length ds - 1)) (length ds)); [lia|]. discriminate. }
    rewrite Er, filter_app in L |- *. cbn [filter] in *. rewrite Np in *. rewrite app_nil_r in *.
    assert (Ef : filter p (seq 0 (length ds - 1)) = seq 0 (length ds - 1)).
    { rewrite <- (seq_length (length ds - 1) 0) in L at 2. revert L. generalize (seq 0 (length ds - 1)). clear.
      induction l as [|x l IH]; simpl; auto. assert (G : length (filter p l) <= length l).
      { clear. induction l as [|y l IH]; simpl; auto. destruct (p y); simpl; lia. }
      destruct (p x); simpl; intro; [f_equal; apply IH|]; lia. }
    rewrite Ef. apply firstn_map_nth. lia.
  Qed.

  Lemma mod_cols C : mod_tri t = Ok C -> forall d, In d (m_cols C) -> In d (firstn (length ds - 1) ds).
  Proof.
    destruct (c11 m os ds f v So Sd Hh Cv) as (l & El & Ho & Hl & _). unfold mod_tri. unfold t. rewrite El. cbn [bind t_mat].
    intro H. injection H as <-. cbn [m_cols]. intros d Hd. apply in_map_iff in Hd as (j & <- & Hj).
    apply filter_In in Hj as (Hj & K). apply in_seq in Hj. rewrite nc_eq in Hj.
    destruct Hh as (Ei & Ec & _). rewrite Ec.
    destruct (Nat.eq_dec j (length ds - 1)) as [->|N].
    - exfalso. apply existsb_exists in K as (i & Hi & K). apply filter_In in Hi as (Hi & _). apply in_seq in Hi. rewrite nr_eq in Hi.
      rewrite Ei, Ec in K. unfold cell in K. rewrite (nth_map_in _ os _ _ 0%Z) in K by lia. rewrite (nth_map_in _ ds _ _ 0%Z) in K by lia.
      destruct (existsb (fun r => keqb (fst r) _) l) eqn:X; [discriminate|].
      unfold mget in K.
      assert (Cx : f (nth i os 0%Z) (nth (length ds - 1) ds 0%Z) <> NaN).
      { rewrite <- cells_nth by lia. rewrite (holds_mk _ _ _ _ Hh) in K. 
        rewrite (cell_at_nth os ds) in K by (auto using zsorted_nodup; lia).
        rewrite (holds_mk _ _ _ _ Hh). cbn [m_cells]. intro Q. rewrite Q in K. discriminate. }
      assert (In (nth i os 0%Z) (map r_o l)) as Hin by (rewrite Ho; apply nth_In; lia).
      apply in_map_iff in Hin as (r & Er & Hr). destruct (Hl r Hr) as ((D1 & D2 & D3) & _). rewrite Er in *.
      assert (Hd : r_d r = nth (length ds - 1) ds 0%Z).
      { destruct (Z.eq_dec (r_d r) (nth (length ds - 1) ds 0%Z)); auto. exfalso. apply Cx. apply D3; [apply nth_In; lia|].
        destruct (In_nth _ _ 0%Z D1) as (k & Hk & Ek). rewrite <- Ek in *. 
        destruct (Nat.eq_dec k (length ds - 1)) as [->|]; [congruence|]. apply zsorted_nth; auto. lia. }
      assert (existsb (fun r => keqb (fst r) (nth i os 0%Z, nth (length ds - 1) ds 0%Z)) l = true); [|congruence].
      apply existsb_exists. exists r. split; auto. destruct r as [[a b] c]. cbn in *. subst. unfold keqb. cbn. rewrite !Z.eqb_refl. auto.
    - rewrite <- firstn_map_nth by lia. apply in_map_iff. exists j. split; auto. apply in_seq. lia.
  Qed.

  Lemma zunion_sub a b : increasing a -> (forall d, In d b -> In d a) -> zunion a b = a.
  Proof.
    intros Sa H. unfold zunion. destruct (listb _ _ _); auto.
    transitivity (uniq Z.compare a); [|apply zuniq_id; auto].
    apply zuniq_ext. intro x. rewrite in_app_iff.
    split; [intros [?|?]; auto|auto].
  Qed.

  Lemma mack_ldfs_len ind al tail : 2 < length ds -> length (m_cols (a2a m)) = length ds - 1 ->
    exists ldfs, mack_ldfs t ind al tail = Ok ldfs /\ length ldfs = length ds.
  Proof.
    intros P L. assert (A := a2a_cols_eq ltac:(lia) L).
    destruct (mod_tri t) as [C|e] eqn:M.
    2:{ exfalso. destruct (c11 m os ds f v So Sd Hh Cv) as (l & El & _). unfold mod_tri, t in M. rewrite El in M. discriminate. }
    assert (Mc := mod_cols C M). unfold mack_ldfs. rewrite M. cbn [bind]. change (t_mat t) with m.
    set (F := firstn (length ds - 1) ds) in *.
    assert (SF : increasing F) by (apply zsorted_firstn; auto).
    assert (U : zunion F (m_cols C) = F) by (apply zunion_sub; auto).
    set (num := falign vmul (falign _ _ _) _). set (den := wC m C ind al).
    assert (En : m_cols num = F).
    { unfold num, falign, mod_a2aind, fmap. cbn [m_cols]. rewrite A, zunion_same. auto. }
    assert (Ed : m_cols den = F).
    { unfold den, wC, falign, mod_a2aind, fmap. cbn [m_cols]. rewrite A. auto. }
    rewrite En. assert (LF : length F = length ds - 1) by (rewrite <- A; auto).
    destruct (inc_ok F) as (i & Ei); [lia|]. rewrite Ei. cbn [bind]. eexists. split; [reflexivity|].
    assert (Lq : forall h : val * val -> val, length (map h (combine (colsums num) (colsums den))) = length F).
    { intro h. rewrite map_length, combine_length. unfold colsums. rewrite !map_length, !seq_length. unfold ncols. rewrite En, Ed. lia. }
    rewrite sset_append.
    - rewrite app_length, combine_length, Lq. cbn [length]. lia.
    - rewrite map_fst_combine by (rewrite Lq; auto). intro H. apply zmax_ge in H. assert (Pi := inc_pos _ _ SF Ei). lia.
  Qed.

  Lemma c77_mack ind al tail : 2 < length ds -> length (m_cols (a2a m)) = length ds - 1 ->
    length os <> length ds -> mack_cl t cl ind al tail = Err ValueError.
  Proof.
    intros P L H. destruct (mack_ldfs_len ind al (Fin 1%Qc) P L) as (ldfs & E & Ll).
    unfold mack_cl. rewrite E. cbn [bind]. rewrite chain_err; auto. lia.
  Qed.

  Lemma c77_short gm ind s tail al : 0 < length ds <= 2 -> length (m_cols (a2a m)) = length ds - 1 ->
    mack_cl t cl ind al tail = Err IndexError /\
    forall avgs, a2a_avgs gm m ind = Ok avgs -> In s (map fst avgs) -> snd (base_cl gm t cl ind (SelLabel s) tail) = Err IndexError.
  Proof.
    intros P L. assert (A := a2a_cols_eq ltac:(lia) L).
    assert (SF : increasing (firstn (length ds - 1) ds)) by (apply zsorted_firstn; auto).
    assert (I : forall l : list Z, length l <= 1 -> increment l = Err IndexError).
    { intros [|a [|b l]]; simpl; try lia; auto. }
    split.
    - destruct (mod_tri t) as [C|e] eqn:M.
      2:{ exfalso. destruct (c11 m os ds f v So Sd Hh Cv) as (l & El & _). unfold mod_tri, t in M. rewrite El in M. discriminate. }
      assert (Mc := mod_cols C M). unfold mack_cl, mack_ldfs. rewrite M. cbn [bind]. change (t_mat t) with m.
      set (num := falign vmul (falign _ _ _) _).
      assert (En : m_cols num = firstn (length ds - 1) ds).
      { unfold num, falign, mod_a2aind, fmap. cbn [m_cols]. rewrite A, zunion_same. apply zunion_sub; auto. }
      rewrite En, I; auto. rewrite firstn_length. lia.
    - intros avgs Av Hs. unfold base_cl, select_ldfs, ldfs_of_label, t. cbn [t_mat]. rewrite Av. cbn [bind].
      destruct (find _ avgs) as [row|] eqn:Q.
      + rewrite I by (rewrite L; lia). reflexivity.
      + exfalso. apply in_map_iff in Hs as (p & E & Hp). apply (find_none _ _ Q) in Hp. subst s. rewrite String.eqb_refl in Hp. discriminate.
  Qed.
End T.

(** Three development periods: one period short of a variance for the last factor. *)
Lemma c77_three m C v cl al tail : regular m 3 C -> positive 3 C -> tail_fits (m_cols m) -> clvi m = Ok cl ->
  mack_cl (mkTri m "origin" "dev" v) cl (a2aind_init m) al tail = Err IndexError.
Proof.
  intros R P Ev Hcl. destruct (weights_init m 3 C R P ltac:(lia)) as (Wi & Wn & Wc).
  destruct (regular_rmat m 3 C R) as (E & So & Sd & Lo & Ld).
  set (os := m_idx m) in *. set (ds := m_cols m) in *. set (ind := a2aind_init m) in *.
  assert (M1 : mack_ldfs (mkTri m "origin" "dev" v) ind al (Fin 1%Qc) = Ok (fser ds 3 (mf 3 C (fun _ _ => 1%Qc) al))).
  { rewrite E. apply r_mack_ldfs; auto. }
  set (f := mf 3 C (fun _ _ => 1%Qc) al) in *.
  assert (M2 := r_chain_ladder os ds 3 C So Sd Lo Ld ltac:(lia) f v tail).
  assert (Q2 : cl = map (fun j => 3 - 1 - j) (seq 0 3)).
  { assert (Q := r_clvi os ds 3 C Lo Ld ltac:(lia)). rewrite <- E in Q. congruence. }
  rewrite <- E, <- Q2 in M2.
  unfold mack_cl. rewrite M1. cbn [bind]. rewrite M2. cbn [bind].
  assert (D : devp_variance (mkTri m "origin" "dev" v) ind (fser ds 3 f) al = Err IndexError); [|rewrite D; reflexivity].
  unfold devp_variance. rewrite E at 1. rewrite r_mod_tri by auto. cbn [bind t_mat].
  change (m_cols m) with ds. change (ncols m) with (length ds). rewrite Ld.
  assert (Dc := r_devp_cell os ds 3 C So Sd Lo Ld). rewrite <- E in Dc.
  destruct ds as [|d0 [|d1 [|d2 [|]]]] eqn:Eds; try discriminate.
  cbn [firstn Nat.sub length seq combine]. cbn [mapM fst snd].
  assert (D0 := Dc ltac:(lia) P ind (fun _ _ => 1%Qc) Wi al f v 0 ltac:(lia)). cbn [firstn Nat.sub nth] in D0.
  rewrite D0.
  cbn [bind mapM combine fser map removelast seq fst snd nth fold_left sset]. rewrite Z.eqb_refl. reflexivity.
Qed.
