(** The last development factor below 1: simulations exchange figures (C42). *)

From Coq Require Import String QArith Qcanon ZArith List Bool Lia Permutation Sorting.Sorted.
From Verif Require Import Val Frame Triangle A2A Base Mack Boot ListLib QcLib Spec Spec2 SpecSim SpecLeak TblFacts ConvFacts FillFacts
  TriClaims4 RegFacts AvgFacts MackFacts BuildFacts BaseClaims BootFit BootLib BootSim BootClaims BootNoise BootClaims2
  BootForm BootFormL BootIndep SimClaims BelowOne.
Import ListNotations.
Open Scope list_scope.
Open Scope nat_scope.

Lemma filter_flat {A} (p : A -> bool) (f : A -> list A) l : (forall k, In k l -> (if p k then [k] else []) = f k) ->
  filter p l = flat_map f l.
Proof.
  induction l as [|x l IH]; intro H; auto. cbn [filter flat_map]. rewrite <- (H x) by (left; auto).
  rewrite IH by (intros; apply H; right; auto). destruct (p x); auto.
Qed.

Section Leak.
  Variables (os ds : list Z) (n : nat) (C fi : nat -> nat -> Qc).
  Hypothesis So : zsorted os.
  Hypothesis Sd : zsorted ds.
  Hypothesis Lo : length os = n.
  Hypothesis Ld : length ds = n.
  Hypothesis Hn : 2 < n.
  Hypothesis Fpos : forall i j, i + j < n -> j < n - 1 -> (0 <= fi i j)%Qc.
  Hypothesis Fneg : (fi 0%nat (n - 1)%nat < 0)%Qc.
  Variable rt : val -> val.
  Hypothesis Rt : root_like rt.
  Variable sims : nat.
  Variable resid : nat -> val.
  Hypothesis Rf : forall k, k < sims * (n * n) -> exists q, resid k = Fin q.

  Let m := rmat os ds n C.
  Let fit := rmat os ds n fi.
  Let o_ i := nth i os 0%Z.
  Let d_ j := nth j ds 0%Z.
  Let cl := map (fun j => n - 1 - j) (seq 0 n).
  Let rl := map (fun i => n - 1 - i) (seq 0 n).
  Let lad := ladev os ds n.
  Let X' := X n fi rt resid.
  Let T := K n fi rt resid.
  Hypothesis Nz : forall s j, s < sims -> j < n - 1 -> sumf 0 (n - 1 - j) (fun i => T s i j) <> 0%Qc.

  Definition pres (i j : nat) : bool := (i + j <? n) && (j <? n - 1).
  Definition row_l (s i j : nat) : simrow :=
    mkS s (o_ i) (d_ j) (negb (i + j <? n)) (if pres i j then Fin (X' s i j) else NaN)
        (if pres i j then Fin (T s i j) else NaN).
  Lemma pres_at i j : j < n - 1 -> pres i j = (j <? n - i).
  Proof.
    intro L. unfold pres. rewrite (proj2 (Nat.ltb_lt j (n - 1))), andb_true_r by auto.
    destruct (Nat.ltb_spec (i + j) n), (Nat.ltb_spec j (n - i)); auto; lia.
  Qed.
  Lemma pres_end i : pres i (n - 1) = false.
  Proof. unfold pres. rewrite Nat.ltb_irrefl. apply andb_false_r. Qed.
  Lemma pres_min i j : j < n -> pres i j = (j <? Nat.min (n - i) (n - 1)).
  Proof.
    intro L. unfold pres. destruct (Nat.ltb_spec (i + j) n), (Nat.ltb_spec j (n - 1)), (Nat.ltb_spec j (Nat.min (n - i) (n - 1))); auto; lia.
  Qed.

  Lemma leak_group s i : s < sims -> i < n -> sample_group rt m fit resid s i = map (row_l s i) (seq 0 n).
  Proof.
    intros Hs Hi. unfold sample_group. change (nrows m) with (length os). change (ncols m) with (length ds).
    rewrite Lo, Ld. change (m_idx m) with os. change (m_cols m) with ds. change (m_cells fit) with (mk n n (rc n fi)).
    set (inc := map (fun k => first_fix k (cell (mk n n (rc n fi)) i k)) (seq 0 n)).
    assert (At : forall k, k < n -> at1 inc k = if i + k <? n then Fin (fi i k) else NaN).
    { intros k Hk. unfold at1, inc. rewrite nth_map_seq by auto. cbn [Nat.add]. rewrite cell_mk by lia. unfold rc, first_fix.
      destruct (Nat.ltb_spec (i + k) n) as [A|A].
      - destruct (Nat.eqb_spec k 0) as [->|D]; auto. cbn [andb vltb].
        destruct (qcltb_spec (fi i 0) 0) as [B|B]; auto. exfalso. apply (Qclt_not_le _ _ B). apply Fpos; lia.
      - cbn [vltb]. rewrite andb_false_r. auto. }
    assert (E2 : map (fun k => if isnan (at1 inc k) then NaN
                 else vadd (at1 inc k) (vmul (resid (s * (n * n) + i * n + k)) (rt (at1 inc k)))) (seq 0 n)
               = rcol n (Nat.min (n - i) (n - 1)) (X' s i)).
    { apply map_seq_ext. intros k Hk. rewrite At by lia. rewrite <- pres_min by lia. unfold pres.
      destruct (Nat.ltb_spec (i + k) n) as [A|A]; auto. cbn [isnan andb].
      destruct (Rf (s * (n * n) + i * n + k)) as (q & Q).
      { assert (i * n + k < n * n) by nia. nia. }
      destruct (Nat.ltb_spec k (n - 1)) as [D|D].
      - rewrite (rt_fin' rt (fi i k) Rt) by (apply Fpos; lia). unfold X', X. rewrite Q. reflexivity.
      - assert (k = n - 1) by lia. assert (i = 0) by lia. subst k i. destruct Rt as (_ & _ & _ & Rn). rewrite Rn by auto. rewrite Q. reflexivity. }
    rewrite E2, cumsum_rcol. apply map_seq_ext. intros k Hk. rewrite At by lia. unfold row_l.
    unfold at1, rcol. rewrite !nth_map_seq by lia. cbn [Nat.add]. rewrite pres_min by lia. f_equal.
    destruct (i + k <? n); auto.
  Qed.

  Lemma leak_tab : samples rt m fit sims resid = cube sims n (fun s i => map (row_l s i) (seq 0 n)).
  Proof.
    unfold samples. change (nrows m) with (length os). rewrite Lo. apply cube_ext. intros s i Hs Hi. apply leak_group; auto.
  Qed.

  Lemma leak_sel s j : s < sims -> j < n ->
    filter (fun r => (b_sim r =? s) && (b_d r =? d_ j)%Z && negb (isnan (b_cum r)))
      (concat (cube sims n (fun s i => map (row_l s i) (seq 0 n))))
    = map (fun i => row_l s i j) (seq 0 (if j <? n - 1 then n - j else 0)).
  Proof.
    intros Hs Hj. rewrite concat_flat_map, flat_map_cube, filter_flat_map.
    rewrite (flat_map_one _ sims s); auto.
    - rewrite filter_flat_map. apply flat_map_prefix; [destruct (j <? n - 1); lia|]. intros i Hi.
      rewrite filter_map_seq.
      assert (E : filter (fun k => (b_sim (row_l s i k) =? s) && (b_d (row_l s i k) =? d_ j)%Z && negb (isnan (b_cum (row_l s i k)))) (seq 0 n)
                = flat_map (fun k => if k =? j then (if pres i j then [j] else []) else []) (seq 0 n)).
      { apply filter_flat. intros k Hk. apply in_seq in Hk. cbn [row_l b_sim b_d b_cum]. rewrite Nat.eqb_refl. unfold d_.
        rewrite (d_inj os ds n) by (auto; lia). cbn [andb].
        destruct (Nat.eqb_spec k j) as [->|D]; auto. destruct (pres i j); auto. }
      rewrite E, (flat_map_one _ n j); [|lia|intros k Hk D; destruct (Nat.eqb_spec k j); congruence].
      rewrite Nat.eqb_refl. unfold pres. destruct (Nat.ltb_spec j (n - 1)) as [A|A].
      + rewrite andb_true_r. destruct (Nat.ltb_spec (i + j) n), (Nat.ltb_spec i (n - j)); auto; lia.
      + rewrite andb_false_r. auto.
    - intros s' Hs' D. rewrite filter_flat_map. apply flat_map_none. intros i _. rewrite filter_map_seq.
      cbn [row_l b_sim]. rewrite (proj2 (Nat.eqb_neq s' s) D). cbn [andb].
      generalize (seq 0 n) as l. induction l as [|k l IH]; auto.
  Qed.

  Definition arow_l (s j : nat) : nat * Z * val * val :=
    (s, d_ j, Fin (sumf 0 (n - j) (fun i => T s i j)), Fin (sumf 0 (n - 1 - j) (fun i => T s i j))).

  Lemma leak_agg : agg_rows m cl sims (samples rt m fit sims resid)
    = flat_map (fun s => map (arow_l s) (seq 0 (n - 1))) (seq 0 sims).
  Proof.
    unfold agg_rows. rewrite leak_tab. change (ncols m) with (length ds). rewrite Ld.
    apply flat_map_seq_ext. intros s Hs. apply flat_map_prefix; [lia|]. intros j Hj.
    change (m_cols m) with ds. change (m_idx m) with os. fold (d_ j). rewrite leak_sel by lia.
    destruct (Nat.ltb_spec j (n - 1)) as [A|A]; auto.
    assert (Ec : nth j cl 0 = n - 1 - j) by (unfold cl; apply nth_map_seq; lia). rewrite Ec. fold (o_ (n - 1 - j)).
    assert (E1 : skipsum (map b_cum (map (fun i => row_l s i j) (seq 0 (n - j)))) = Fin (sumf 0 (n - j) (fun i => T s i j))).
    { rewrite map_map. apply skipsum_gen. intros i Hi. apply in_seq in Hi. left. cbn [row_l b_cum]. rewrite pres_at by auto. apply ltb_if. lia. }
    assert (E2 : skipsum (map (fun r => if (b_o r =? o_ (n - 1 - j))%Z then Fin 0%Qc else b_cum r)
                   (map (fun i => row_l s i j) (seq 0 (n - j)))) = Fin (sumf 0 (n - 1 - j) (fun i => T s i j))).
    { rewrite map_map. rewrite (skipsum_gen _ _ (fun i => if i <? n - 1 - j then T s i j else 0%Qc)).
      - f_equal. change (sumf 0 (n - j) (fun i => if i <? n - 1 - j then T s i j else 0%Qc) = sumf 0 (n - 1 - j) (fun i => T s i j)).
        rewrite (sumf_prefix (n - j) (n - 1 - j)); [|lia|].
        + apply sumf_ext. intros i Hi. apply ltb_if. lia.
        + intros i Hi. apply nltb_if. lia.
      - intros i Hi. apply in_seq in Hi. left. cbn [row_l b_o b_cum]. unfold o_. rewrite (o_inj os ds n) by (auto; lia).
        rewrite pres_at by auto.
        destruct (Nat.eqb_spec i (n - 1 - j)) as [->|D].
        + rewrite nltb_if by lia. auto.
        + rewrite !ltb_if by lia. auto. }
    unfold arow_l. rewrite E1, E2. destruct (n - j) eqn:Q; [lia|]. reflexivity.
  Qed.

  (** The factor table: the last factor of a simulation is made of figures of two. *)
  Definition lead (s : nat) : list (nat * Z * val) :=
    match s with O => [] | S q => [(s, d_ (n - 2), Fin (leaked n T s (n - 2)))] end.
  Definition lrow_l (s j : nat) : nat * Z * val := (s, d_ j, Fin (vol_factor n (T s) j)).

  Lemma vdiv_nz a b : b <> 0%Qc -> (veqb (Fin b) (Fin 0%Qc) || isnan (Fin b) || isnan (Fin a)) = false /\ vdiv (Fin a) (Fin b) = Fin (a / b)%Qc.
  Proof.
    intro D. split; [|apply vdiv_fin; auto]. cbn [isnan veqb]. rewrite !orb_false_r. destruct (qceqb_spec b 0); congruence.
  Qed.

  Lemma leak_block s r : s < sims -> forall c j, j + c = n - 2 ->
    ldf_rows (Some (d_ j, Fin (sumf 0 (n - 1 - j) (fun i => T s i j)))) (map (arow_l s) (seq (S j) c) ++ r)
    = map (lrow_l s) (seq j c) ++ ldf_rows (Some (d_ (n - 2), Fin (T s 0%nat (n - 2)%nat))) r.
  Proof.
    intros Hs. induction c as [|c IH]; intros j L.
    - replace (n - 2) with j by lia. cbn [seq map app]. do 4 f_equal.
      replace (n - 1 - j) with 1 by lia. rewrite sumf_Sl, sumf_0. ring.
    - cbn [seq map app]. unfold arow_l at 1. cbn [ldf_rows]. rewrite IH by lia.
      destruct (vdiv_nz (sumf 0 (n - S j) (fun i => T s i (S j))) (sumf 0 (n - 1 - j) (fun i => T s i j))) as (Q1 & Q2).
      { apply Nz; lia. }
      rewrite Q1, Q2. cbn [app]. f_equal. unfold lrow_l, vol_factor. replace (n - S j) with (n - 1 - j) by lia. reflexivity.
  Qed.

  Lemma leak_blocks k : forall a, a + k <= sims ->
    ldf_rows (match a with O => None | S q => Some (d_ (n - 2), Fin (T q 0%nat (n - 2)%nat)) end)
      (flat_map (fun s => map (arow_l s) (seq 0 (n - 1))) (seq a k))
    = flat_map (fun s => lead s ++ map (lrow_l s) (seq 0 (n - 2))) (seq a k).
  Proof.
    induction k as [|k IH]; intros a L; [destruct a; auto|]. cbn [seq flat_map].
    assert (Es : seq 0 (n - 1) = 0 :: seq 1 (n - 2)) by (rewrite seq_first by lia; do 2 f_equal; lia).
    remember (flat_map (fun s => map (arow_l s) (seq 0 (n - 1))) (seq (S a) k)) as rest eqn:Er.
    rewrite Es. cbn [map app]. unfold arow_l at 1. cbn [ldf_rows].
    assert (Q := leak_block a rest ltac:(lia) (n - 2) 0 ltac:(lia)). rewrite Q. rewrite Er.
    assert (I := IH (S a) ltac:(lia)). cbn iota in I. rewrite I. rewrite <- app_assoc. f_equal.
    destruct a as [|q]; auto.
    assert (Z0 : T q 0%nat (n - 2)%nat <> 0%Qc).
    { assert (W := Nz q (n - 2) ltac:(lia) ltac:(lia)). replace (n - 1 - (n - 2)) with 1 in W by lia.
      rewrite sumf_Sl, sumf_0, Qcplus_0_r in W. exact W. }
    destruct (vdiv_nz (sumf 0 (n - 0) (fun i => T (S q) i 0)) (T q 0%nat (n - 2)%nat) Z0) as (Q1 & Q2).
    rewrite Q1, Q2. unfold lead, leaked. rewrite Nat.ltb_irrefl, Nat.sub_0_r. reflexivity.
  Qed.

  Definition Lf_ (s j : nat) : val :=
    if j <? n - 2 then Fin (vol_factor n (T s) j)
    else if (j =? n - 2) && negb (s =? 0) then Fin (leaked n T s (n - 2)) else NaN.

  Lemma leak_at s j : s < sims -> j < n ->
    ldf_at (bs_ldfs m cl sims (samples rt m fit sims resid)) s (d_ j) = Lf_ s j.
  Proof.
    intros Hs Hj. unfold bs_ldfs. rewrite leak_agg.
    assert (Q := leak_blocks sims 0 ltac:(lia)). cbn iota in Q. rewrite Q. unfold ldf_at. rewrite find_flat, filter_flat_map.
    rewrite (flat_map_one _ sims s); auto.
    2:{ intros s' Hs' D. rewrite filter_app, filter_map_seq. unfold lrow_l.
        assert (E : filter (fun r => (fst (fst r) =? s) && (snd (fst r) =? d_ j)%Z) (lead s') = []).
        { destruct s' as [|q]; auto. cbn [lead filter fst snd]. destruct (Nat.eqb_spec (S q) s); [congruence|]. auto. }
        rewrite E. cbn [app fst snd]. rewrite (proj2 (Nat.eqb_neq s' s) D). cbn [andb].
        generalize (seq 0 (n - 2)) as l. induction l as [|k l IH]; auto. }
    rewrite filter_app, filter_map_seq. unfold lrow_l. cbn [fst snd].
    assert (E : filter (fun k => (s =? s) && (d_ k =? d_ j)%Z) (seq 0 (n - 2))
              = flat_map (fun k => if k =? j then [j] else []) (seq 0 (n - 2))).
    { apply filter_flat. intros k Hk. apply in_seq in Hk. rewrite Nat.eqb_refl. unfold d_. rewrite (d_inj os ds n) by (auto; lia).
      cbn [andb]. destruct (Nat.eqb_spec k j) as [->|D]; auto. }
    rewrite E. unfold Lf_. destruct (Nat.ltb_spec j (n - 2)) as [A|A].
    - assert (E1 : filter (fun r => (fst (fst r) =? s) && (snd (fst r) =? d_ j)%Z) (lead s) = []).
      { destruct s as [|q]; auto. cbn [lead filter fst snd]. unfold d_. rewrite (d_inj os ds n) by (auto; lia).
        destruct (Nat.eqb_spec (n - 2) j); [lia|]. rewrite andb_false_r. auto. }
      rewrite E1, (flat_map_one _ (n - 2) j); auto; [rewrite Nat.eqb_refl; reflexivity|].
      intros k Hk D. destruct (Nat.eqb_spec k j); congruence.
    - rewrite (flat_map_none _ (seq 0 (n - 2))).
      2:{ intros k Hk. apply in_seq in Hk. destruct (Nat.eqb_spec k j); [lia|auto]. }
      cbn [map]. rewrite app_nil_r. destruct s as [|q].
      + cbn [lead filter Nat.eqb negb]. rewrite andb_false_r. auto.
      + cbn [lead filter fst snd Nat.eqb negb]. rewrite Nat.eqb_refl, andb_true_r. unfold d_. rewrite (d_inj os ds n) by (auto; lia).
        rewrite Nat.eqb_sym. destruct (j =? n - 2); auto.
  Qed.

  Let tabl := samples rt m fit sims resid.
  Let ltl := bs_ldfs m cl sims tabl.

  Lemma leak_fc s i : i < n -> fc_part lad (map (row_l s i) (seq 0 n)) = map (row_l s i) (seq (n - 1 - i) (S i)).
  Proof.
    intro Hi. unfold fc_part. rewrite filter_map_seq. f_equal. cbn [row_l b_o b_d].
    rewrite (filter_from os ds n Lo Ld ltac:(lia) _ (n - 1 - i)); [f_equal; lia|lia|].
    intros j Hj. unfold lad, o_. rewrite (ladev_eq os ds n) by (auto; lia). apply (leb_d os ds n); auto; lia.
  Qed.
  Lemma leak_act s i : i < n -> act_part lad (map (row_l s i) (seq 0 n)) = map (row_l s i) (seq 0 (n - 1 - i)).
  Proof.
    intro Hi. unfold act_part. rewrite filter_map_seq. f_equal. cbn [row_l b_o b_d].
    apply filter_seq_prefix; [lia|]. intros j Hj. unfold lad, o_, d_. rewrite (ladev_eq os ds n) by (auto; lia).
    rewrite (leb_d os ds n) by (auto; lia).
    destruct (Nat.leb_spec (n - 1 - i) j), (Nat.ltb_spec j (n - 1 - i)); auto; lia.
  Qed.
  Lemma leak_first s i : i < n -> is_first m (map (row_l s i) (seq 0 n)) = (i =? 0).
  Proof.
    intro Hi. unfold is_first. rewrite (seq_first n) by lia. cbn [map]. cbn [row_l b_o].
    change (m_idx m) with os.
    assert (Zf : zmin os = nth 0 os 0%Z).
    { apply (zmin_first os ds n C (fun _ _ => 0%Qc)) with (sims := 0) (resid := fun _ => NaN); auto; try lia.
      intros; apply Qcle_refl. }
    rewrite Zf. unfold o_. apply (o_inj os ds n); auto; lia.
  Qed.

  Lemma leak_cl s i : s < sims -> i < n ->
    cum_ldfs lad ltl (map (row_l s i) (seq 0 n)) = cumprod (map (Lf_ s) (seq (n - 1 - i) (S i))).
  Proof.
    intros Hs Hi. unfold cum_ldfs. f_equal. rewrite leak_fc, map_map by auto. apply map_ext_in.
    intros j Hj. apply in_seq in Hj. cbn [row_l b_sim b_d]. apply leak_at; auto. lia.
  Qed.
  Lemma leak_end s : Lf_ s (n - 1) = NaN.
  Proof. unfold Lf_. rewrite nltb_if by lia. destruct (Nat.eqb_spec (n - 1) (n - 2)); [lia|auto]. Qed.
  Lemma leak_last s i : i < n -> last (NaN :: cumprod (map (Lf_ s) (seq (n - 1 - i) (S i)))) NaN = NaN.
  Proof.
    intro Hi. unfold cumprod. apply cumprod_last; [discriminate|].
    rewrite seq_S, map_app. cbn [map]. rewrite last_last. replace (n - 1 - i + i) with (n - 1) by lia. apply leak_end.
  Qed.

  (** Factors used on the forecast cells: the missing one of the first simulation
      counts as 0. *)
  Let lk s := leaked n T s.
  Lemma leak_shift s i : s < sims -> 0 < i < n ->
    map nan0 (removelast (NaN :: cumprod (map (Lf_ s) (seq (n - 1 - i) (S i)))))
    = Fin 0%Qc :: map (fun j => Fin (prodf (n - 1 - i) (j - (n - 1 - i)) (lk s))) (seq (n - i) i).
  Proof.
    intros Hs Hi. unfold cumprod. rewrite seq_S, map_app. cbn [map].
    replace (n - 1 - i + i) with (n - 1) by lia. rewrite leak_end.
    replace (seq (n - 1 - i) i) with (seq (n - 1 - i) (i - 1) ++ [n - 2]).
    2:{ replace i with (i - 1 + 1) at 4 by lia. rewrite seq_app. cbn [seq]. do 2 f_equal. lia. }
    rewrite map_app. cbn [map].
    assert (E : map (Lf_ s) (seq (n - 1 - i) (i - 1)) = map (fun j => Fin (lk s j)) (seq (n - 1 - i) (i - 1))).
    { apply map_ext_in. intros j Hj. apply in_seq in Hj. unfold Lf_, lk, leaked. rewrite !ltb_if by lia. auto. }
    rewrite E. rewrite <- app_assoc. cbn [app].
    assert (El : Lf_ s (n - 2) = if s =? 0 then NaN else Fin (lk s (n - 2))).
    { unfold Lf_. rewrite nltb_if by lia. rewrite Nat.eqb_refl. destruct s; auto. }
    rewrite El.
    assert (G : forall l a, exists b c, cum_from vmul (Fin a) (map (fun j => Fin (lk s j)) l ++ [if s =? 0 then NaN else Fin (lk s (n - 2)); NaN])
      = cum_from vmul (Fin a) (map (fun j => Fin (lk s j)) l) ++ [b; c] /\
      nan0 b = Fin (a * qprod (map (lk s) l) * lk s (n - 2))%Qc).
    { induction l as [|x l IH]; intro a.
      - cbn [map app cum_from qprod]. destruct (Nat.eqb_spec s 0) as [->|D].
        + do 2 eexists. cbn [isnan]. split; [reflexivity|]. cbn [nan0 isnan]. unfold lk, leaked. rewrite nltb_if by lia. f_equal. ring.
        + do 2 eexists. cbn [isnan]. split; [reflexivity|]. cbn [vmul nan0 isnan]. f_equal. ring.
      - destruct (IH (a * lk s x)%Qc) as (b & c & E1 & E2). exists b, c. cbn [map app cum_from isnan vmul qprod].
        rewrite E1. split; [reflexivity|]. rewrite E2. f_equal. ring. }
    destruct (G (seq (n - 1 - i) (i - 1)) 1%Qc) as (b & c & E1 & E2). rewrite E1.
    rewrite cum_mul_seq. change [b; c] with ([b] ++ [c]). rewrite app_assoc, app_comm_cons, removelast_last.
    cbn [map nan0 isnan]. f_equal.
    replace (seq (n - i) i) with (map S (seq (n - 1 - i) (i - 1)) ++ [n - 1]).
    2:{ rewrite seq_shift. replace (S (n - 1 - i)) with (n - i) by lia. replace i with (i - 1 + 1) at 4 by lia. rewrite seq_app. cbn [seq].
        do 2 f_equal. lia. }
    rewrite !map_app, !map_map. cbn [map]. f_equal.
    - apply map_ext. intro j. cbn [nan0 isnan]. f_equal. ring.
    - rewrite E2. do 2 f_equal. 
      assert (Q : forall k a, qprod (map (lk s) (seq a k)) = prodf a k (lk s)).
      { clear. intros k a. unfold prodf. reflexivity. }
      rewrite Q. replace (n - 1 - (n - 1 - i)) with (S (i - 1)) by lia. rewrite prodf_Sr.
      replace (n - 1 - i + (i - 1)) with (n - 2) by lia. ring.
  Qed.

  Let D s i := developed_by n (lk s) (T s) i.
  Definition rec_l (s i j : nat) : simrow :=
    mkS s (o_ i) (d_ j) (negb (i + j <? n)) (Fin (linc ds (D s i) j)) (Fin (D s i j)).

  Lemma nan0_mul a x q : nan0 x = Fin q -> nan0 (vmul (Fin a) x) = Fin (a * q)%Qc.
  Proof.
    destruct x; cbn [nan0 isnan]; intro H; try discriminate.
    - injection H as H. cbn [vmul nan0 isnan]. rewrite <- H. f_equal. ring.
    - injection H as ->. reflexivity.
  Qed.

  Lemma leak_fcast s i : s < sims -> 0 < i < n ->
    fcast m lad ltl (map (row_l s i) (seq 0 n)) = (Fin (T s i (n - 1 - i)%nat), map (rec_l s i) (seq 0 n)).
  Proof.
    intros Hs Hi. unfold fcast. rewrite leak_first by lia. rewrite (proj2 (Nat.eqb_neq i 0)) by lia.
    assert (Pr : forall j, i + j < n -> b_cum (row_l s i j) = Fin (T s i j)).
    { intros j L. cbn [row_l b_cum]. unfold pres. rewrite !(proj2 (Nat.ltb_lt _ _)) by lia. auto. }
    assert (La : l_act_cum lad (map (row_l s i) (seq 0 n)) = Fin (T s i (n - 1 - i)%nat)).
    { unfold l_act_cum. rewrite leak_fc by lia. cbn [seq map]. apply Pr. lia. }
    assert (Fc : fc_cums lad (map (row_l s i) (seq 0 n)) (removelast (NaN :: cum_ldfs lad ltl (map (row_l s i) (seq 0 n))))
                 = map (fun j => Fin (D s i j)) (seq 0 n)).
    { unfold fc_cums. rewrite La, leak_cl, leak_fc, leak_act by lia.
      assert (Sh := leak_shift s i Hs Hi). remember (removelast (NaN :: cumprod (map (Lf_ s) (seq (n - 1 - i) (S i))))) as xs eqn:Ex. clear Ex.
      replace (seq 0 n) with (seq 0 (n - 1 - i) ++ seq (n - 1 - i) (S i)) by (rewrite <- seq_app; f_equal; lia).
      rewrite map_app. f_equal.
      - rewrite map_map. apply map_ext_in. intros j Hj. apply in_seq in Hj. rewrite Pr by lia. unfold D, developed_by. rewrite ltb_if by lia. auto.
      - destruct xs as [|x xs]; [discriminate|]. cbn [map] in Sh. injection Sh as Sx Sh. cbn [seq map combine]. f_equal.
        + unfold cum_final. cbn [fst snd]. rewrite Pr by lia. rewrite (nan0_mul _ _ _ Sx). cbn [nan0 isnan vadd].
          unfold D, developed_by. rewrite ltb_if by lia. f_equal. ring.
        + replace (S (n - 1 - i)) with (n - i) by lia.
          assert (G : forall l xs, (forall j, In j l -> n <= i + j) ->
            map nan0 xs = map (fun j => Fin (prodf (n - 1 - i) (j - (n - 1 - i)) (lk s))) l ->
            map (cum_final (Fin (T s i (n - 1 - i)%nat))) (combine (map (row_l s i) l) xs) = map (fun j => Fin (D s i j)) l).
          { clear xs Sh. induction l as [|j l IH]; intros [|y ys] B Sh; try discriminate; auto. cbn [map combine] in *.
            injection Sh as Sy Sh. rewrite IH; auto; [|intros; apply B; right; auto]. f_equal.
            assert (Bj := B j (or_introl eq_refl)). unfold cum_final. cbn [fst snd row_l b_cum]. unfold pres.
            rewrite (proj2 (Nat.ltb_ge (i + j) n)) by auto. cbn [andb]. rewrite (nan0_mul _ _ _ Sy). cbn [nan0 isnan vadd].
            unfold D, developed_by. rewrite nltb_if by auto. f_equal. ring. }
          apply G; auto. intros j Hj. apply in_seq in Hj. lia. }
    rewrite La, Fc. f_equal. rewrite leak_act, leak_fc by lia.
    rewrite <- map_app, <- seq_app. replace (n - 1 - i + S i) with n by lia.
    unfold set_cum_inc. rewrite map_map.
    change (map (fun x => b_d (row_l s i x)) (seq 0 n)) with (map (fun k => nth k ds 0%Z) (seq 0 n)).
    rewrite (lincrs_eq os ds n Lo Ld ltac:(lia) (D s i)).
    assert (G : forall l, map (fun p => let r := fst p in mkS (b_sim r) (b_o r) (b_d r) (b_fc r) (snd (snd p)) (fst (snd p)))
       (combine (map (row_l s i) l) (combine (map (fun k => Fin (D s i k)) l) (map (fun k => Fin (linc ds (D s i) k)) l)))
       = map (rec_l s i) l).
    { induction l as [|k l IH]; auto. cbn [map combine]. apply (f_equal2 cons); [|exact IH]. auto. }
    apply G.
  Qed.

  (** Oldest origin: its last value is missing. *)
  Lemma incr_from_last d l : forall prev, exists r, incr_from prev (l ++ [(d, NaN)]) = r ++ [NaN] /\ length r = length l.
  Proof.
    induction l as [|[d' c'] l IH]; intro prev.
    - exists []. split; auto. cbn [app incr_from]. rewrite vmul_nan_r. reflexivity.
    - destruct (IH c') as (r & E & Lr). eexists (_ :: r). cbn [app incr_from]. rewrite E. split; [reflexivity|]. simpl. auto.
  Qed.
  Lemma cumsum_nan l : forall acc, exists r, cum_from vadd acc (l ++ [NaN]) = r ++ [NaN].
  Proof.
    induction l as [|v l IH]; intro acc.
    - exists []. reflexivity.
    - cbn [app cum_from]. destruct (isnan v).
      + destruct (IH acc) as (r & ->). exists (NaN :: r). auto.
      + destruct (IH (vadd acc v)) as (r & ->). eexists (_ :: r). reflexivity.
  Qed.
  Lemma leak_oldest gd0 pos s : s < sims ->
    fcast m lad ltl (map (row_l s 0) (seq 0 n)) = (NaN, set_cum_inc (map (row_l s 0) (seq 0 n)) (map b_cum (map (row_l s 0) (seq 0 n)))) /\
    last (cumsum (fincs gd0 pos (set_cum_inc (map (row_l s 0) (seq 0 n)) (map b_cum (map (row_l s 0) (seq 0 n)))))) NaN = NaN.
  Proof.
    intro Hs. split.
    { unfold fcast. rewrite leak_first by lia. reflexivity. }
    unfold set_cum_inc.
    replace (seq 0 n) with (seq 0 (n - 1) ++ [n - 1]).
    2:{ replace n with (n - 1 + 1) at 3 by lia. rewrite seq_app. auto. }
    rewrite !map_app. cbn [map].
    assert (Ec : b_cum (row_l s 0 (n - 1)) = NaN) by (cbn [row_l b_cum]; rewrite pres_end; auto). rewrite Ec.
    assert (Lc : forall A B (a : list A) (b : list B) x y, length a = length b -> combine (a ++ [x]) (b ++ [y]) = combine a b ++ [(x, y)]).
    { clear. induction a as [|u a IH]; intros [|v b] x y L; try discriminate; auto. cbn [app combine]. f_equal. apply IH. injection L. auto. }
    rewrite Lc by (rewrite !map_length; auto).
    destruct (incr_from_last (b_d (row_l s 0 (n - 1))) (combine (map b_d (map (row_l s 0) (seq 0 (n - 1)))) (map b_cum (map (row_l s 0) (seq 0 (n - 1))))) NaN)
      as (r & Er & Lr). rewrite Er.
    rewrite combine_length, !map_length, Nat.min_id in Lr.
    rewrite Lc by (rewrite !map_length; auto). rewrite Lc by (rewrite combine_length, !map_length, Lr, seq_length; lia).
    rewrite map_app. cbn [map fst snd]. unfold fincs. rewrite app_length. cbn [length].
    rewrite seq_app. cbn [seq]. rewrite Lc by apply seq_length. rewrite map_app. cbn [map fst snd]. unfold final_incr at 2. cbn [b_fc b_inc].
    cbn [row_l b_fc]. rewrite (proj2 (Nat.ltb_lt (0 + (n - 1)) n)) by lia. cbn [negb].
    unfold cumsum. match goal with |- last (cum_from _ ?a (?l ++ _)) _ = _ => destruct (cumsum_nan l a) as (q & ->) end.
    apply last_last.
  Qed.

  Hypothesis D1 : nth 0 ds 0%Z = 1%Z.
  Variable c : Qc.
  Hypothesis Cp : (0 < c)%Qc.
  Variable gam : list (val * val) -> nat -> val.
  Variable V : nat -> nat -> nat -> Qc -> Qc.
  Hypothesis Gm : forall ps s i j a, s < sims -> 0 < i < n -> j < n -> (0 <= a)%Qc ->
    nth (s * (n * n) + i * n + j) ps (NaN, NaN) = (Fin a, Fin c) -> gam ps (s * (n * n) + i * n + j) = Fin (V s i j a).
  Let fut s i := future_by n (lk s) (T s) c (V s i) i.

  Lemma leak_linc s i j : j < n -> linc ds (D s i) j = incr_of (D s) i j.
  Proof.
    intro Hj. unfold linc, incr_of. destruct j as [|j].
    - rewrite D1. cbn [Z.eqb Pos.eqb]. ring.
    - assert (W := zsorted_nth ds 0 (S j) 0%Z Sd). destruct (Z.eqb_spec (nth (S j) ds 0%Z) 1); [lia|]. ring.
  Qed.

  Lemma leak_records : simulate rt m cl rl fit (Fin c) sims resid gam
      = flat_map (fun i => map (fun s => if i =? 0 then mkR s (o_ i) NaN NaN (Fin 0%Qc)
            else mkR s (o_ i) (Fin (T s i (n - 1 - i)%nat)) (Fin (T s i (n - 1 - i)%nat + fut s i)%Qc) (Fin (fut s i))) (seq 0 sims)) (seq 0 n).
  Proof.
    unfold simulate. fold tabl. fold ltl.
    change (fun o : Z => match zfind o (m_idx m) with Some i => nth (nth i rl 0) (m_cols m) 0%Z | None => 0%Z end) with lad.
    assert (Tab : tabl = cube sims n (fun s i => map (row_l s i) (seq 0 n))) by apply leak_tab.
    assert (Nd : m_cols m <> []). { change (ds <> []). intro Q. rewrite Q in Ld. simpl in Ld. lia. }
    assert (Sg : forall g, In g tabl -> gsorted g).
    { intros g Hg. rewrite Tab in Hg. apply in_cube in Hg as (s & i & Hs & Hi & ->).
      apply (group_sorted _ s (nth i os 0%Z) ds Sd). rewrite <- leak_group by auto. rewrite group_key. reflexivity. }
    assert (Fk := forecasts_keys m lad ltl tabl Sg NaN).
    assert (Ef : forecasts m lad ltl NaN tabl = map (fcast m lad ltl) tabl).
    { apply forecasts_map. intros g Hg _. rewrite Tab in Hg. apply in_cube in Hg as (s & i & Hs & Hi & ->).
      rewrite leak_cl by auto. apply leak_last. auto. }
    set (fcs := forecasts m lad ltl NaN tabl) in *.
    assert (Lt : length tabl = sims * n) by (rewrite Tab; apply cube_length).
    assert (En : nrows m = n) by (change (nrows m) with (length os); auto).
    assert (Ec : ncols m = n) by (change (ncols m) with (length ds); auto).
    assert (Lfc : length fcs = sims * nrows m) by (rewrite Ef, map_length, En; auto).
    assert (At : forall s i, s < sims -> i < n -> nth (s * n + i) fcs (NaN, []) = fcast m lad ltl (map (row_l s i) (seq 0 n))).
    { intros s i Hs Hi. rewrite Ef, Tab, map_cube, cube_nth by auto. reflexivity. }
    assert (Kf : forall s i, s < sims -> i < nrows m ->
      map key (snd (nth (s * nrows m + i) fcs (NaN, []))) = map (fun d => (s, nth i (m_idx m) 0%Z, d)) (m_cols m)).
    { intros s i Hs Hi. rewrite En in *. assert (Q := forall2_nth _ _ _ [] (NaN, []) (s * n + i) Fk).
      rewrite Lt in Q. destruct Q as (Q & _); [nia|]. rewrite Q, Tab, cube_nth by auto. rewrite <- leak_group by auto. apply group_key. }
    assert (Ra := records_any m (Fin c) sims fcs So Sd Nd Lfc Kf gam). rewrite En, Ec in Ra. rewrite Ra.
    apply flat_map_seq_ext. intros i Hi. apply map_seq_ext. intros s Hs.
    assert (Gp := fun k => gparams_any m (Fin c) sims fcs Lfc Kf s i k ltac:(lia)). rewrite En, Ec in Gp.
    rewrite At in * by lia. destruct (Nat.eqb_spec i 0) as [->|Di].
    { destruct (leak_oldest (gam (gparams (Fin c) fcs)) ((s * n + 0) * n) s ltac:(lia)) as (Q1 & Q2).
      rewrite Q1. cbn [fst snd]. rewrite Q2. reflexivity. }
    rewrite leak_fcast in * by lia. cbn [fst snd] in *.
    set (fin j := if i + j <? n then incr_of (D s) i j
                  else (sign_ (incr_of (D s) i j) * V s i j (abs_ (incr_of (D s) i j) / c))%Qc).
    assert (Z0 : c <> 0%Qc) by (apply qc_pos_neq; auto).
    assert (Fi : fincs (gam (gparams (Fin c) fcs)) ((s * n + i) * n) (map (rec_l s i) (seq 0 n))
                 = map (fun k => Fin (fin k)) (seq 0 n)).
    { unfold fincs. rewrite map_length, seq_length.
      assert (G : forall k a, a + k <= n -> map (fun p => final_incr (gam (gparams (Fin c) fcs)) (fst p) (snd p))
          (combine (seq ((s * n + i) * n + a) k) (map (rec_l s i) (seq a k))) = map (fun k => Fin (fin k)) (seq a k)).
      { induction k as [|k IH]; intros a A; auto. cbn [seq map combine]. f_equal.
        - cbn [fst snd]. unfold final_incr. cbn [rec_l b_fc b_inc]. unfold fin. rewrite leak_linc by lia.
          destruct (Nat.ltb_spec (i + a) n) as [B|B]; auto. cbn [negb].
          assert (Ga := Gp a ltac:(lia) ltac:(lia)). rewrite nth_map_seq in Ga by lia. cbn [Nat.add rec_l b_inc] in Ga.
          rewrite leak_linc, vdiv_fin, vabs_fin, abs_div in Ga by (auto; lia).
          assert (Ep : (s * n + i) * n + a = s * (n * n) + i * n + a) by nia. rewrite Ep in Ga |- *.
          assert (Aq : (0 <= abs_ (incr_of (D s) i a) / c)%Qc).
          { unfold Qcdiv. apply qc_mul_nonneg; [apply abs_nn|apply Qclt_le_weak, qc_inv_pos; auto]. }
          rewrite (Gm _ s i a _ ltac:(lia) ltac:(lia) ltac:(lia) Aq Ga).
          unfold vltb, sign_. destruct (qcltb 0 _); cbn [vmul]; f_equal; ring.
        - rewrite <- Nat.add_succ_r. apply IH. lia. }
      assert (G0 := G n 0 ltac:(lia)). rewrite Nat.add_0_r in G0. exact G0. }
    rewrite Fi, sum_last by lia.
    assert (Su : sumf 0 n fin = (T s i (n - 1 - i)%nat + fut s i)%Qc).
    { replace n with (n - i - 0 + i) at 1 by lia. rewrite sumf_cat by lia. rewrite Nat.sub_0_r. f_equal.
      - rewrite (sumf_ext _ _ _ (incr_of (T s) i)).
        + replace (n - i) with (S (n - 1 - i)) by lia.
          assert (G : forall k, sumf 0 (S k) (incr_of (T s) i) = T s i k).
          { induction k as [|k IH]; [rewrite sumf_Sl, sumf_0; cbn [incr_of]; ring|]. rewrite sumf_Sr, IH. cbn [Nat.add incr_of]. ring. }
          apply G.
        + intros j Hj. unfold fin. rewrite ltb_if by lia. destruct j as [|j]; cbn [incr_of]; unfold D, developed_by; rewrite !ltb_if by lia; auto.
      - unfold fut, future_by. cbv zeta. apply sumf_ext. intros j Hj. unfold fin. apply nltb_if. lia. }
    change (fun k => fin k) with fin. rewrite Su. unfold rec_of. cbn [isnan vsub vneg vadd nan0]. fold (o_ i).
    assert (Q : (T s i (n - 1 - i)%nat + fut s i + - T s i (n - 1 - i)%nat)%Qc = fut s i) by ring.
    rewrite Q. reflexivity.
  Qed.
End Leak.

Lemma future_by_mean n f T c V i : (0 < c)%Qc -> i < n -> (forall j a, n - i <= j < n -> V j a = (a * c)%Qc) ->
  (T i (n - 1 - i)%nat + future_by n f T c V i)%Qc = developed_by n f T i (n - 1).
Proof.
  intros Cp Hi H. assert (Z0 : c <> 0%Qc) by (apply qc_pos_neq; auto). unfold future_by.
  rewrite (sumf_ext _ _ _ (fun j => incr_of (developed_by n f T) i j)).
  - assert (E : T i (n - 1 - i) = developed_by n f T i (n - 1 - i)) by (unfold developed_by; rewrite ltb_if by lia; auto). rewrite E.
    assert (G : forall k, (developed_by n f T i (n - 1 - i) + sumf (n - i) k (fun j => incr_of (developed_by n f T) i j))%Qc
                          = developed_by n f T i (n - 1 - i + k)).
    { induction k as [|k IH].
      - rewrite sumf_0, Nat.add_0_r. ring.
      - rewrite sumf_Sr, Qcplus_assoc, IH. replace (n - i + k) with (S (n - 1 - i + k)) by lia. cbn [incr_of].
        replace (n - 1 - i + S k) with (S (n - 1 - i + k)) by lia. ring. }
    rewrite G. f_equal. lia.
  - intros j Hj. cbv zeta. rewrite H by lia.
    replace (abs_ (incr_of (developed_by n f T) i j) / c * c)%Qc with (abs_ (incr_of (developed_by n f T) i j)) by (field; auto).
    apply abs_sign.
Qed.

Lemma developed_by_ext n f f' T T' i j : 0 < i < n -> (forall k, k < n - 1 -> f k = f' k) ->
  (forall i j, i + j < n -> j < n - 1 -> T i j = T' i j) -> j < n -> developed_by n f T i j = developed_by n f' T' i j.
Proof.
  intros Hi Hf HT Hj. unfold developed_by. destruct (Nat.ltb_spec (i + j) n) as [A|A].
  - apply HT; lia.
  - rewrite HT by lia. f_equal. apply prodf_ext. intros k Hk. apply Hf. lia.
Qed.

Section Call.
  Variables (gm : list val -> val) (rt : val -> val) (root : Qc -> Qc) (m : lmat) (n : nat) (C M : nat -> nat -> Qc)
         (cl rl : list nat) (ind : list (list val)) (w : nat -> nat -> bool) (sims : nat) (par : bool)
         (rng : list val -> (nat -> val) * (list (val * val) -> nat -> val)) (b : boot_result) (c : Qc)
         (E : nat -> nat -> nat -> Qc) (V : nat -> nat -> nat -> Qc -> Qc).
  Hypothesis R : regular m n C.
  Hypothesis P : positive n C.
  Hypothesis Hn : 2 < n.
  Hypothesis Ev : tail_fits (m_cols m).
  Hypothesis Hi : forall i j, i + j < n - 1 -> cell ind i j = Fin (if w i j then 1 else 0)%Qc.
  Hypothesis Hl : forall j, j < n - 1 -> w (n - 2 - j) j = true.
  Hypothesis Cl : clvi m = Ok cl.
  Hypothesis Rl : rlvi m = Ok rl.
  Hypothesis Rt : root_like rt.
  Hypothesis Ro : forall q, (0 <= q)%Qc -> rt (Fin q) = Fin (root q).
  Hypothesis F1 : forall j, j < n - 2 -> (1 <= vol_factor n C j)%Qc.
  Hypothesis F2 : (vol_factor n C (n - 2)%nat < 1)%Qc.
  Hypothesis D1 : nth 0 (m_cols m) 0%Z = 1%Z.
  Hypothesis B : boot_cl gm rt (mkTri m "origin" "dev" "value") cl rl ind sims par rng = Ok b.
  Hypothesis Sc : o_scale b = Fin c.
  Hypothesis Cp : (0 < c)%Qc.
  Hypothesis Rm : regular (o_fit_incr b) n M.
  Hypothesis He : forall s i j, s < sims -> i < n -> j < n -> fst (rng (o_dist b)) (s * (n * n) + i * n + j) = Fin (E s i j).
  Hypothesis Hv : forall ps s i j a, s < sims -> i < n -> j < n -> (0 <= a)%Qc ->
    nth (s * (n * n) + i * n + j) ps (NaN, NaN) = (Fin a, Fin c) ->
    snd (rng (o_dist b)) ps (s * (n * n) + i * n + j) = Fin (V s i j a).
  Let T s := resampled M (E s) root.
  Hypothesis Nz : forall s j, s < sims -> j < n - 1 -> sumf 0 (n - 1 - j) (fun i => T s i j) <> 0%Qc.
  Let reserve s i := future_by n (leaked n T s) (T s) c (V s i) i.

  Lemma c42_leak : o_reserves b = flat_map (fun i => map (fun s =>
      if i =? 0 then mkR s (nth 0 (m_idx m) 0%Z) NaN NaN (Fin 0%Qc)
      else mkR s (nth i (m_idx m) 0%Z) (Fin (T s i (n - 1 - i)%nat)) (Fin (T s i (n - 1 - i)%nat + reserve s i)%Qc) (Fin (reserve s i)))
    (seq 0 sims)) (seq 0 n).
  Proof.
    assert (R' := R). apply regular_rmat in R' as (Em & So & Sd & Lo & Ld).
    assert (El : cl = map (fun j => n - 1 - j) (seq 0 n) /\ rl = map (fun i => n - 1 - i) (seq 0 n)).
    { assert (Cl' := Cl). assert (Rl' := Rl). rewrite Em in Cl', Rl'. rewrite r_clvi in Cl' by (auto; lia). rewrite r_rlvi in Rl' by (auto; lia).
      split; congruence. }
    destruct El as (El & Er).
    assert (B' := B). rewrite (boot_eq m n C R P Hn Ev ind w Hi Hl) in B'. cbv zeta in B'.
    destruct (negb par && _ && _); [discriminate|]. injection B' as Eb.
    set (fi := incr_of (fitc n C (vol_factor n C))) in *.
    assert (Ed : o_dist b = sampling_dist (ra m n C rt)) by (rewrite <- Eb; reflexivity).
    assert (Es : scale_param m (ru m n C rt) = Fin c) by (rewrite <- Sc, <- Eb; reflexivity).
    assert (Efi : o_fit_incr b = rmat (m_idx m) (m_cols m) n fi) by (rewrite <- Eb; reflexivity).
    rewrite Ed in He, Hv. rewrite Es in Eb.
    set (resid := fst (rng (sampling_dist (ra m n C rt)))) in *. set (gam := snd (rng (sampling_dist (ra m n C rt)))) in *.
    assert (Vp : forall k, k < n - 1 -> (0 < vol_factor n C k)%Qc) by (intros k Hk; apply vol_pos; auto; lia).
    assert (St : forall i k, i + S k < n -> fi i (S k) = (fitc n C (vol_factor n C) i k * (vol_factor n C k - 1))%Qc).
    { intros i k Hk. unfold fi. cbn [incr_of]. rewrite fitc_step by auto. ring. }
    assert (Fc : forall i k, i + k < n -> (0 < fitc n C (vol_factor n C) i k)%Qc) by (intros; apply fitc_pos; auto).
    assert (Fpos : forall i j, i + j < n -> j < n - 1 -> (0 <= fi i j)%Qc).
    { intros i j L1 L2. destruct j as [|j].
      - apply Qclt_le_weak. apply Fc. auto.
      - rewrite St by auto. apply qc_mul_nonneg; [apply Qclt_le_weak, Fc; lia|]. assert (A := F1 j ltac:(lia)). qlra. }
    assert (Fneg : (fi 0%nat (n - 1)%nat < 0)%Qc).
    { replace (n - 1) with (S (n - 2)) by lia. rewrite St by lia. assert (A := Fc 0 (n - 2) ltac:(lia)).
      assert (Q : (0 < fitc n C (vol_factor n C) 0 (n - 2) * (1 - vol_factor n C (n - 2)%nat))%Qc) by (apply qc_mul_pos; auto; qlra).
      assert (Q2 : (fitc n C (vol_factor n C) 0 (n - 2) * (vol_factor n C (n - 2)%nat - 1) = - (fitc n C (vol_factor n C) 0 (n - 2) * (1 - vol_factor n C (n - 2)%nat)))%Qc) by ring.
      rewrite Q2. qlra. }
    assert (Mf : forall i j, i + j < n -> M i j = fi i j).
    { rewrite Efi in Rm. apply (regular_inj n Hn (rmat (m_idx m) (m_cols m) n fi)); auto. apply rmat_regular; auto. }
    assert (Kt : forall s i j, s < sims -> i + j < n -> j < n - 1 -> K n fi rt resid s i j = T s i j).
    { intros s i j Hs L1 L2. unfold K, T, resampled. apply sumf_ext. intros k Hk. unfold X.
      rewrite He by lia. cbn [fq]. rewrite Ro by (apply Fpos; lia). cbn [fq]. rewrite Mf by lia. ring. }
    assert (Rf : forall k, k < sims * (n * n) -> exists q, resid k = Fin q).
    { intros k Hk. set (q := k / (n * n)). set (r := k mod (n * n)). set (i := r / n). set (j := r mod n).
      assert (N0 : n * n <> 0) by nia. assert (n <> 0) by lia.
      assert (k = n * n * q + r) by (apply Nat.div_mod; auto).
      assert (r < n * n) by (apply Nat.mod_upper_bound; auto).
      assert (r = n * i + j) by (apply Nat.div_mod; auto).
      assert (j < n) by (apply Nat.mod_upper_bound; auto).
      assert (q < sims) by (apply Nat.div_lt_upper_bound; auto; lia).
      assert (i < n) by (apply Nat.div_lt_upper_bound; auto; lia).
      exists (E q i j). rewrite <- He by auto. f_equal. lia. }
    assert (Lr := leak_records (m_idx m) (m_cols m) n C fi So Sd Lo Ld Hn Fpos Fneg rt Rt sims resid Rf).
    assert (Ore : o_reserves b = simulate rt m cl rl (rmat (m_idx m) (m_cols m) n fi) (Fin c) sims resid gam) by (rewrite <- Eb; reflexivity).
    rewrite Ore, El, Er. rewrite Em at 1. rewrite Lr with (V := V); auto.
    - apply flat_map_seq_ext. intros i Hi'. apply map_seq_ext. intros s Hs. destruct (Nat.eqb_spec i 0) as [->|Di]; auto.
      rewrite Kt by lia.
      assert (Lk : forall k, k < n - 1 -> leaked n (K n fi rt resid) s k = leaked n T s k).
      { intros k Hk. unfold leaked. destruct (Nat.ltb_spec k (n - 2)).
        - unfold vol_factor. apply (f_equal2 Qcdiv); apply sumf_ext; intros x Hx; apply Kt; lia.
        - destruct s as [|q]; auto. rewrite Kt by lia. f_equal. apply sumf_ext. intros x Hx. apply Kt; lia. }
      assert (Fe : future_by n (leaked n (K n fi rt resid) s) (K n fi rt resid s) c (V s i) i = reserve s i).
      { unfold reserve, future_by. apply sumf_ext. intros j Hj. destruct j as [|j]; [lia|]. cbn [incr_of]. cbv zeta.
        rewrite !(developed_by_ext n (leaked n (K n fi rt resid) s) (leaked n T s) (K n fi rt resid s) (T s)) by (auto; try lia; intros; apply Kt; lia).
        reflexivity. }
      rewrite Fe. reflexivity.
    - intros s j Hs Hj. rewrite (sumf_ext _ _ _ (fun i => T s i j)); [apply Nz; auto|]. intros x Hx. apply Kt; lia.
    - intros ps s i j a Hs Hi' Hj A Q. apply Hv; auto. lia.
  Qed.
End Call.

Lemma c42_leak_mean :
  forall (gm : list val -> val) (rt : val -> val) (root : Qc -> Qc) (m : lmat) (n : nat) (C M : nat -> nat -> Qc)
         (cl rl : list nat) (ind : list (list val)) (w : nat -> nat -> bool) (sims : nat) (par : bool)
         (rng : list val -> (nat -> val) * (list (val * val) -> nat -> val)) (b : boot_result) (c : Qc)
         (E : nat -> nat -> nat -> Qc),
  regular m n C -> positive n C -> 2 < n -> tail_fits (m_cols m) ->
  (forall i j, i + j < n - 1 -> cell ind i j = Fin (if w i j then 1 else 0)%Qc) ->
  (forall j, j < n - 1 -> w (n - 2 - j) j = true) ->
  clvi m = Ok cl -> rlvi m = Ok rl -> root_like rt -> (forall q, (0 <= q)%Qc -> rt (Fin q) = Fin (root q)) ->
  (forall j, j < n - 2 -> (1 <= vol_factor n C j)%Qc) -> (vol_factor n C (n - 2)%nat < 1)%Qc ->
  nth 0 (m_cols m) 0%Z = 1%Z ->
  boot_cl gm rt (mkTri m "origin" "dev" "value") cl rl ind sims par rng = Ok b ->
  o_scale b = Fin c -> (0 < c)%Qc -> regular (o_fit_incr b) n M ->
  (forall s i j, s < sims -> i < n -> j < n -> fst (rng (o_dist b)) (s * (n * n) + i * n + j) = Fin (E s i j)) ->
  (forall ps k a, nth k ps (NaN, NaN) = (Fin a, Fin c) -> snd (rng (o_dist b)) ps k = Fin (a * c)%Qc) ->
  let T s := resampled M (E s) root in
  (forall s j, s < sims -> j < n - 1 -> sumf 0 (n - 1 - j) (fun i => T s i j) <> 0%Qc) ->
  forall r s i, In r (o_reserves b) -> v_sim r = s -> v_o r = nth i (m_idx m) 0%Z -> 0 < i < n ->
    let own := (T s i (n - 1 - i)%nat * prodf (n - 1 - i) (i - 1) (vol_factor n (T s)))%Qc in
    v_ultimate r = Fin match s with
                       | O => 0
                       | S q => own * (sumf 0 n (fun k => T s k 0%nat) / T q 0%nat (n - 2)%nat)
                       end%Qc.
Proof.
  intros gm rt root m n C M cl rl ind w sims par rng b c E R P Hn Ev Hi Hl Cl Rl Rt Ro F1 F2 D1 B Sc Cp Rm He Hv T Nz r s i Hr Es Eo Hi' own.
  assert (W := c42_leak gm rt root m n C M cl rl ind w sims par rng b c E (fun _ _ _ a => (a * c)%Qc)
    R P Hn Ev Hi Hl Cl Rl Rt Ro F1 F2 D1 B Sc Cp Rm He (fun ps s i j a _ _ _ _ H => Hv ps _ a H) Nz).
  assert (R' := R). apply regular_rmat in R' as (_ & So & _ & Lo & _).
  rewrite W in Hr. apply in_flat_map in Hr as (k & Hk & Hr). apply in_map_iff in Hr as (s' & <- & Hs'). apply in_seq in Hk, Hs'.
  destruct (Nat.eqb_spec k 0) as [->|Dk].
  { cbn [v_o] in Eo. assert (Q := zsorted_nth (m_idx m) 0 i 0%Z So). lia. }
  cbn [v_sim v_o v_ultimate] in *. subst s'.
  assert (k = i).
  { destruct (Nat.lt_total k i) as [Q|[Q|Q]]; auto.
    - assert (Z1 := zsorted_nth (m_idx m) k i 0%Z So). lia.
    - assert (Z1 := zsorted_nth (m_idx m) i k 0%Z So). lia. }
  subst k. f_equal. fold (T s). rewrite future_by_mean by (auto; lia). unfold developed_by. rewrite nltb_if by lia.
  replace (n - 1 - (n - 1 - i)) with (S (i - 1)) by lia. rewrite prodf_Sr. replace (n - 1 - i + (i - 1)) with (n - 2) by lia.
  rewrite (prodf_ext _ _ _ (vol_factor n (T s))).
  2:{ intros k Hk'. unfold leaked. apply ltb_if. lia. }
  unfold own, leaked. rewrite nltb_if by lia. destruct s as [|q]; unfold T; ring.
Qed.
