(** What mack_cl reads of the indicator table: the products of indicator and power of
    the loss, on the labels of the link ratio table (C78, C90). *)

From Coq Require Import String QArith Qcanon ZArith List Bool Lia Sorting.Sorted Permutation.
From Verif Require Import Val Frame Triangle A2A Base Mack State SpecState ListLib QcLib Spec BuildFacts RegFacts MackFacts TriClaims4
  AvgFacts AvgClaims2 AcceptClaims Enlarge EnlargeClaims SpaceClaims MackW.
Import ListNotations.
Open Scope string_scope.
Open Scope list_scope.
Open Scope nat_scope.

(** *** Sums over a larger set of labels *)
Lemma vadd_0_l v : vadd (Fin 0%Qc) v = v.
Proof. destruct v; simpl; auto. f_equal. ring. Qed.

Lemma skipsum_filter (h : Z -> val) (p : Z -> bool) l : (forall o, In o l -> p o = false -> h o = NaN) ->
  skipsum (map h l) = skipsum (map h (filter p l)).
Proof.
  induction l as [|o l IH]; intro H; auto. cbn [map filter]. rewrite skipsum_cons.
  rewrite IH by (intros; apply H; simpl; auto). destruct (p o) eqn:E.
  - cbn [map]. rewrite skipsum_cons. auto.
  - rewrite (H o) by (simpl; auto). cbn [isnan]. apply vadd_0_l.
Qed.

Lemma filter_sorted p l : zsorted l -> zsorted (filter p l).
Proof.
  induction l as [|x l IH]; intro K; [constructor|]. inversion K as [|? ? K1 K2]; subst. cbn [filter]. destruct (p x).
  - constructor; [apply IH; auto|]. rewrite Forall_forall in K2 |- *. intros y Hy. apply filter_In in Hy as (Hy & _). auto.
  - apply IH. auto.
Qed.

Lemma skipsum_sub (h : Z -> val) I L : zsorted I -> zsorted L -> (forall o, In o I -> In o L) ->
  (forall o, In o L -> ~ In o I -> h o = NaN) -> skipsum (map h L) = skipsum (map h I).
Proof.
  intros SI SL Sub H. rewrite (skipsum_filter h (fun o => zmem o I)).
  - f_equal. f_equal. apply zsorted_ext; [apply filter_sorted; auto|auto|].
    intro o. rewrite filter_In. rewrite zmem_in. split; [tauto|auto].
  - intros o Ho E. apply H; auto. intro Q. apply zmem_in in Q. congruence.
Qed.

Lemma zunion_sorted_r a b : zsorted b -> zsorted (zunion a b).
Proof.
  intro H. unfold zunion. destruct (listb Z.eqb a b) eqn:E; [|apply zuniq_sorted].
  apply listb_eq in E; [|intros; apply Z.eqb_eq; auto]. subst. auto.
Qed.

(** *** Frames and columns, by label *)
Lemma falign_get op a b o d : NoDup (zunion (m_idx a) (m_idx b)) -> NoDup (zunion (m_cols a) (m_cols b)) ->
  In o (zunion (m_idx a) (m_idx b)) -> In d (zunion (m_cols a) (m_cols b)) ->
  mget (falign op a b) o d = op (mget a o d) (mget b o d).
Proof.
  intros N1 N2 H1 H2. unfold falign.
  rewrite (mget_fun _ _ (fun o d => op (mget a o d) (mget b o d))) by auto.
  apply zmem_in in H1, H2. rewrite H1, H2. auto.
Qed.
Lemma fmap_get g a o d : In o (m_idx a) -> In d (m_cols a) -> List.length (m_cells a) = nrows a ->
  (forall r, In r (m_cells a) -> List.length r = ncols a) -> mget (fmap g a) o d = g (mget a o d).
Proof.
  intros Ho Hd Lc Lr. unfold mget, cell_at, fmap. cbn [m_idx m_cols m_cells].
  destruct (zfind o (m_idx a)) as [i|] eqn:Ei; [|apply zfind_none in Ei; contradiction].
  destruct (zfind d (m_cols a)) as [j|] eqn:Ej; [|apply zfind_none in Ej; contradiction].
  apply zfind_some in Ei as (Li & _). apply zfind_some in Ej as (Lj & _). unfold nrows, ncols in *.
  unfold cell. rewrite (nth_map_in _ (m_cells a) _ _ []) by lia.
  assert (K := Lr (nth i (m_cells a) []) ltac:(apply nth_In; lia)).
  rewrite (nth_map_in _ (nth i (m_cells a) []) _ _ NaN) by lia. auto.
Qed.
Lemma colsums_falign op a b : let L := zunion (m_idx a) (m_idx b) in let K := zunion (m_cols a) (m_cols b) in
  colsums (falign op a b) = map (fun d => skipsum (map (fun o => op (mget a o d) (mget b o d)) L)) K.
Proof.
  cbv zeta. unfold colsums, ncols, falign at 2. cbn [m_cols]. rewrite (map_by_pos _ (zunion (m_cols a) (m_cols b))).
  apply map_seq_ext. intros j Hj. f_equal. unfold mcol, nrows, falign. cbn [m_idx m_cells].
  rewrite (map_by_pos (fun o => op (mget a o (nth j (zunion (m_cols a) (m_cols b)) 0%Z))
    (mget b o (nth j (zunion (m_cols a) (m_cols b)) 0%Z)))). apply map_seq_ext. intros i Hi. unfold cell.
  rewrite (nth_map_in _ (zunion (m_idx a) (m_idx b)) _ _ 0%Z) by lia.
  rewrite (nth_map_in _ (zunion (m_cols a) (m_cols b)) _ _ 0%Z) by lia. auto.
Qed.

Lemma slookup_combine idx (g : nat -> val) o :
  slookup (combine idx (map g (seq 0 (List.length idx)))) o = match zfind o idx with Some i => g i | None => NaN end.
Proof.
  revert g. induction idx as [|x idx IH]; intro g; [reflexivity|].
  cbn [List.length seq map combine]. unfold slookup. cbn [find fst zfind].
  rewrite (Z.eqb_sym x o). destruct (Z.eqb_spec o x); auto.
  rewrite <- seq_shift, map_map. specialize (IH (fun i => g (S i))). unfold slookup in IH. rewrite IH.
  destruct (zfind o idx); auto.
Qed.
Lemma map_fst_comb {X Y} (a : list X) (b : list Y) : List.length b = List.length a -> map fst (combine a b) = a.
Proof.
  revert b. induction a as [|x a IH]; intros [|y b] H; try discriminate; auto. cbn [combine map fst]. f_equal. apply IH. simpl in H. lia.
Qed.
Lemma fcol_look a d : In d (m_cols a) ->
  exists s, fcol a d = Ok s /\ map fst s = m_idx a /\ forall o, slookup s o = mget a o d.
Proof.
  intro Hd. unfold fcol, mget, cell_at. destruct (zfind d (m_cols a)) as [j|] eqn:Ej; [|apply zfind_none in Ej; contradiction].
  eexists. split; [reflexivity|]. split.
  - apply map_fst_comb. unfold mcol, nrows. rewrite map_length, seq_length. auto.
  - intro o. unfold mcol, nrows. rewrite slookup_combine. destruct (zfind o (m_idx a)); auto.
Qed.
Lemma smap_look g s o : slookup (smap g s) o = if zmem o (map fst s) then g (slookup s o) else NaN.
Proof.
  unfold smap, slookup. induction s as [|p s IH]; [reflexivity|]. cbn [map find fst zmem existsb].
  rewrite (Z.eqb_sym (fst p) o). destruct (Z.eqb o (fst p)); auto.
Qed.
Lemma salign_look op a b o : slookup (salign op a b) o
  = if zmem o (zunion (map fst a) (map fst b)) then op (slookup a o) (slookup b o) else NaN.
Proof.
  unfold salign. generalize (zunion (map fst a) (map fst b)). intro l.
  unfold slookup at 1. induction l as [|k l IH]; [reflexivity|]. cbn [map find fst zmem existsb].
  rewrite (Z.eqb_sym k o). destruct (Z.eqb_spec o k) as [->|N]; auto.
Qed.
Lemma salign_fst op a b : map fst (salign op a b) = zunion (map fst a) (map fst b).
Proof. unfold salign. rewrite map_map. cbn [fst]. apply map_id. Qed.
Lemma smap_fst g s : map fst (smap g s) = map fst s.
Proof. unfold smap. rewrite map_map. auto. Qed.

Lemma mapM_ext_in {A B} (f g : A -> res B) l : (forall x, In x l -> f x = g x) -> mapM f l = mapM g l.
Proof. apply mapM_ext. Qed.

Section S.
  Variables (m : lmat) (v : string) (C : lmat).
  Notation t := (mkTri m "origin" "dev" v).
  Notation I := (m_idx (a2a m)).
  Notation A := (m_cols (a2a m)).
  Hypothesis HC : mod_tri t = Ok C.
  Hypothesis Ci : m_idx C = I.
  Hypothesis Cc : m_cols C = A.
  Hypothesis Cl : List.length (m_cells C) = nrows C.
  Hypothesis Cr : forall r, In r (m_cells C) -> List.length r = ncols C.
  Hypothesis SI : zsorted I.
  Hypothesis SA : zsorted A.
  Hypothesis Dev : forall d, In d (firstn (ncols m - 2) (m_cols m)) -> In d A.

  (** A table of indicators: the periods of the link ratios, at least their origins. *)
  Definition covers (W : lmat) : Prop :=
    m_cols W = A /\ NoDup (m_idx W) /\ forall o, In o I -> In o (m_idx W).

  Variable al : nat.
  Notation P := (fmap (fun v => vpow v al) C).

  Lemma den_sums W : covers W ->
    colsums (falign vmul W P) = map (fun d => skipsum (map (fun o => vmul (mget W o d) (mget P o d)) I)) A.
  Proof.
    intros (Wc & Wn & Wi). rewrite colsums_falign. cbn [fmap m_idx m_cols]. rewrite Ci, Cc, Wc, zunion_same.
    apply map_ext. intro d. apply skipsum_sub; auto.
    - apply zunion_sorted_r. auto.
    - intros o Ho. apply zunion_in. auto.
    - intros o _ No. rewrite (mget_out P); [apply vmul_nan_r|]. left. cbn [fmap m_idx]. rewrite Ci. auto.
  Qed.

  Lemma num_cols W : covers W -> m_cols (falign vmul (falign vmul (a2a m) W) P) = A.
  Proof. intros (Wc & _). cbn [falign m_cols fmap]. rewrite Cc, Wc, !zunion_same. auto. Qed.

  Lemma num_sums W : covers W -> colsums (falign vmul (falign vmul (a2a m) W) P)
    = map (fun d => skipsum (map (fun o => vmul (vmul (mget (a2a m) o d) (mget W o d)) (mget P o d)) I)) A.
  Proof.
    intros (Wc & Wn & Wi). rewrite colsums_falign. cbn [falign fmap m_idx m_cols]. rewrite Ci, Cc, Wc, !zunion_same.
    apply map_ext_in. intros d Hd.
    rewrite (skipsum_sub _ I).
    - f_equal. apply map_ext_in. intros o Ho.
      rewrite falign_get; auto.
      + apply zsorted_nodup, zunion_sorted; auto.
      + rewrite Wc, zunion_same. apply zsorted_nodup; auto.
      + apply zunion_in; auto.
      + rewrite Wc, zunion_same. auto.
    - auto.
    - apply zunion_sorted_r. auto.
    - intros o Ho. apply zunion_in. auto.
    - intros o _ No. rewrite (mget_out P); [apply vmul_nan_r|]. left. cbn [fmap m_idx]. rewrite Ci. auto.
  Qed.

  (** Two tables with the same products are not told apart. *)
  Variables W1 W2 : lmat.
  Hypothesis G1 : covers W1.
  Hypothesis G2 : covers W2.
  Hypothesis Pr : forall o d, In o I -> In d A -> vmul (mget W1 o d) (mget P o d) = vmul (mget W2 o d) (mget P o d).
  Hypothesis Pn : forall o d, In o I -> In d A ->
    vmul (vmul (mget (a2a m) o d) (mget W1 o d)) (mget P o d) = vmul (vmul (mget (a2a m) o d) (mget W2 o d)) (mget P o d).

  Lemma same_ldfs tail : mack_ldfs_w t W1 al tail = mack_ldfs_w t W2 al tail.
  Proof.
    unfold mack_ldfs_w. rewrite HC. cbn [bind t_mat].
    rewrite !num_sums, !den_sums, !num_cols by auto.
    assert (E1 : map (fun d => skipsum (map (fun o => vmul (vmul (mget (a2a m) o d) (mget W1 o d)) (mget P o d)) I)) A
               = map (fun d => skipsum (map (fun o => vmul (vmul (mget (a2a m) o d) (mget W2 o d)) (mget P o d)) I)) A).
    { apply map_ext_in. intros d Hd. f_equal. apply map_ext_in. intros o Ho. apply Pn; auto. }
    assert (E2 : map (fun d => skipsum (map (fun o => vmul (mget W1 o d) (mget P o d)) I)) A
               = map (fun d => skipsum (map (fun o => vmul (mget W2 o d) (mget P o d)) I)) A).
    { apply map_ext_in. intros d Hd. f_equal. apply map_ext_in. intros o Ho. apply Pr; auto. }
    rewrite E1, E2. auto.
  Qed.

  (** A product of a column of indicators and one of powers, summed. *)
  Lemma col_prod W d : covers W -> In d A ->
    exists wd c, fcol W d = Ok wd /\ fcol C d = Ok c /\
      map fst (salign vmul wd (smap (fun v => vpow v al) c)) = zunion (m_idx W) I /\
      (forall o, In o I -> slookup (salign vmul wd (smap (fun v => vpow v al) c)) o = vmul (mget W o d) (mget P o d)) /\
      skipsum (map snd (salign vmul wd (smap (fun v => vpow v al) c)))
      = skipsum (map (fun o => vmul (mget W o d) (mget P o d)) I).
  Proof.
    intros (Wc & Wn & Wi) Hd.
    destruct (fcol_look W d ltac:(rewrite Wc; auto)) as (wd & E1 & F1 & L1).
    destruct (fcol_look C d ltac:(rewrite Cc; auto)) as (c & E2 & F2 & L2).
    exists wd, c. split; [auto|]. split; [auto|].
    assert (Ef : map fst (salign vmul wd (smap (fun v => vpow v al) c)) = zunion (m_idx W) I).
    { rewrite salign_fst, smap_fst, F1, F2, Ci. auto. }
    assert (Lk : forall o, In o I -> vmul (slookup wd o) (slookup (smap (fun v => vpow v al) c) o) = vmul (mget W o d) (mget P o d)).
    { intros o Ho. rewrite smap_look, F2, Ci. replace (zmem o I) with true by (symmetry; apply zmem_in; auto).
      rewrite L1, L2. f_equal. symmetry. apply fmap_get; auto; [rewrite Ci; auto|rewrite Cc; auto]. }
    split; [auto|]. split.
    - intros o Ho. rewrite salign_look, smap_fst, F1, F2, Ci.
      replace (zmem o (zunion (m_idx W) I)) with true by (symmetry; apply zmem_in, zunion_in; auto). auto.
    - unfold salign. rewrite map_map. cbn [snd]. rewrite smap_fst, F1, F2, Ci.
      rewrite (skipsum_sub _ I); auto.
      + f_equal. apply map_ext_in. intros o Ho. auto.
      + apply zunion_sorted_r. auto.
      + intros o Ho. apply zunion_in. auto.
      + intros o _ No. rewrite smap_look, F2, Ci. destruct (zmem o I) eqn:E; [apply zmem_in in E; contradiction|]. apply vmul_nan_r.
  Qed.

  Lemma cell_sum W ldfs indx d : covers W -> In d A ->
    devp_cell_w t C W ldfs al indx d =
    Ok (vdiv (skipsum (map (fun o => vmul (vmul (mget W o d) (mget P o d)) (vpow (vsub (mget (a2a m) o d) (slookup ldfs d)) 2)) I))
             (vz (Z.of_nat (nrows m) - Z.of_nat indx - 2))).
  Proof.
    intros GW Hd. destruct (col_prod W d GW Hd) as (wd & c & E1 & E2 & Ef & Lk & _).
    destruct (fcol_look (a2a m) d Hd) as (F & E3 & F3 & L3).
    unfold devp_cell_w. rewrite E1, E2. cbn [bind t_mat]. rewrite E3. cbn [bind]. do 2 f_equal.
    set (s1 := salign vmul wd (smap (fun v => vpow v al) c)) in *.
    set (dev := smap _ (smap _ F)).
    assert (Fd : map fst dev = I) by (unfold dev; rewrite !smap_fst; auto).
    unfold salign. rewrite map_map. cbn [snd]. rewrite Ef, Fd. rewrite (skipsum_sub _ I); auto.
    - f_equal. apply map_ext_in. intros o Ho. rewrite Lk by auto. f_equal.
      assert (Zo : zmem o I = true) by (apply zmem_in; auto).
      unfold dev. rewrite smap_look, smap_fst, F3, Zo. rewrite smap_look, F3, Zo. rewrite L3. auto.
    - apply zunion_sorted_r. auto.
    - intros o Ho. apply zunion_in. auto.
    - intros o _ No. unfold dev. rewrite smap_look, smap_fst, F3.
      destruct (zmem o I) eqn:E; [apply zmem_in in E; contradiction|]. apply vmul_nan_r.
  Qed.

  Lemma same_devp ldfs : devp_variance_w t W1 ldfs al = devp_variance_w t W2 ldfs al.
  Proof.
    unfold devp_variance_w. rewrite HC. cbn [bind t_mat].
    assert (E : forall W, covers W -> mapM (fun p => devp_cell_w t C W ldfs al (fst p) (snd p))
        (combine (seq 0 (List.length (firstn (ncols m - 2) (m_cols m)))) (firstn (ncols m - 2) (m_cols m)))
      = mapM (fun p => Ok (vdiv (skipsum (map (fun o => vmul (vmul (mget W o (snd p)) (mget P o (snd p)))
                 (vpow (vsub (mget (a2a m) o (snd p)) (slookup ldfs (snd p))) 2)) I))
             (vz (Z.of_nat (nrows m) - Z.of_nat (fst p) - 2))))
        (combine (seq 0 (List.length (firstn (ncols m - 2) (m_cols m)))) (firstn (ncols m - 2) (m_cols m)))).
    { intros W GW. apply mapM_ext_in. intros (i & d) Hp. apply in_combine_r in Hp. cbn [fst snd]. apply cell_sum; auto. }
    rewrite (E W1 G1), (E W2 G2). clear E.
    rewrite (mapM_ext_in _ (fun p => Ok (vdiv (skipsum (map (fun o => vmul (vmul (mget W2 o (snd p)) (mget P o (snd p)))
                 (vpow (vsub (mget (a2a m) o (snd p)) (slookup ldfs (snd p))) 2)) I))
             (vz (Z.of_nat (nrows m) - Z.of_nat (fst p) - 2))))); auto.
    intros (i & d) Hp. apply in_combine_r in Hp. cbn [fst snd]. do 3 f_equal. apply map_ext_in. intros o Ho. rewrite Pr; auto.
  Qed.

  Lemma same_ldfvar dv : ldf_variance_w t W1 dv al = ldf_variance_w t W2 dv al.
  Proof.
    unfold ldf_variance_w. rewrite HC. cbn [bind]. rewrite (proj1 G1), (proj1 G2).
    erewrite mapM_ext_in; [reflexivity|]. intros d Hd. cbv beta.
    destruct (col_prod W1 d G1 Hd) as (wd & c & E1 & E2 & _ & _ & S1).
    destruct (col_prod W2 d G2 Hd) as (wd' & c' & E1' & E2' & _ & _ & S2).
    rewrite E2 in E2'. injection E2' as <-. rewrite E1, E1', E2. cbn [bind]. rewrite S1, S2. do 4 f_equal.
    apply map_ext_in. intros o Ho. apply Pr; auto.
  Qed.

  Lemma same_mack cl tail : mack_cl_w t cl W1 al tail = mack_cl_w t cl W2 al tail.
  Proof.
    unfold mack_cl_w. rewrite same_ldfs. destruct (mack_ldfs_w t W2 al (Fin 1%Qc)) as [ldfs|]; auto. cbn [bind].
    destruct (chain_ladder t cl ldfs tail) as [r|]; auto. cbn [bind].
    rewrite same_devp. destruct (devp_variance_w t W2 ldfs al) as [dv|]; auto. cbn [bind].
    rewrite same_ldfvar. auto.
  Qed.
End S.
