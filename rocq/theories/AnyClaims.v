(** Closed form of every simulated record of every run-off triangle (C98). *)

From Coq Require Import String QArith Qcanon ZArith List Bool Lia Permutation Sorting.Sorted.
From Verif Require Import Val Frame Triangle A2A Base Mack Boot ListLib QcLib Spec Spec2 SpecSim SpecAny TblFacts ConvFacts FillFacts
  TriClaims4 RegFacts AvgFacts MackFacts BuildFacts BaseClaims BootFit BootLib BootSim BootClaims BootNoise BootClaims2
  BootForm BootFormL BootIndep SimClaims BelowOne LeakClaims.
Import ListNotations.
Open Scope list_scope.
Open Scope nat_scope.

Lemma cum_add_opt (p : nat -> bool) (x : nat -> Qc) k : forall b a,
  cum_from vadd (Fin a) (map (fun j => if p j then Fin (x j) else NaN) (seq b k))
  = map (fun j => if p j then Fin (a + sumf b (S j - b) (fun h => if p h then x h else 0%Qc))%Qc else NaN) (seq b k).
Proof.
  induction k as [|k IH]; intros b a; auto. cbn [seq map cum_from].
  destruct (p b) eqn:Q; cbn [isnan vadd]; rewrite IH; f_equal.
  - f_equal. replace (S b - b) with 1 by lia. rewrite sumf_Sl, sumf_0, Q. ring.
  - apply map_seq_ext. intros j Hj. destruct (p j); auto. f_equal.
    replace (S j - b) with (S (S j - S b)) by lia. rewrite sumf_Sl, Q. ring.
  - apply map_seq_ext. intros j Hj. destruct (p j); auto. f_equal.
    replace (S j - b) with (S (S j - S b)) by lia. rewrite sumf_Sl, Q. ring.
Qed.

Section All.
  Variables (os ds : list Z) (n : nat) (C fi : nat -> nat -> Qc) (keep : nat -> bool).
  Hypothesis So : zsorted os.
  Hypothesis Sd : zsorted ds.
  Hypothesis Lo : length os = n.
  Hypothesis Ld : length ds = n.
  Hypothesis Hn : 0 < n.
  Hypothesis Kp0 : keep 0 = true.
  Hypothesis Fpos : forall i j, i + j < n -> keep j = true -> (0 <= fi i j)%Qc.
  Hypothesis Fneg : forall i j, i + j < n -> keep j = false -> (fi i j < 0)%Qc.
  Variable rt : val -> val.
  Hypothesis Rt : root_like rt.
  Variable sims : nat.
  Variable resid : nat -> val.
  Hypothesis Rf : forall k, k < sims * (n * n) -> exists q, resid k = Fin q.

  Let m := rmat os ds n C.
  Let fit := rmat os ds n fi.
  Let o_ i := nth i os 0%Z.
  Let d_ j := nth j ds 0%Z.
  Let cl := map (fun j => n - 1 - j) (seq 0 n).
  Let rl := map (fun i => n - 1 - i) (seq 0 n).
  Let lad := ladev os ds n.
  Let X' := X n fi rt resid.
  Definition Ka (s i j : nat) : Qc := sumf 0 (S j) (fun k => if keep k then X' s i k else 0%Qc).
  Let T := Ka.

  Definition presa (i j : nat) : bool := (i + j <? n) && keep j.
  Definition row_a (s i j : nat) : simrow :=
    mkS s (o_ i) (d_ j) (negb (i + j <? n)) (if presa i j then Fin (X' s i j) else NaN)
        (if presa i j then Fin (T s i j) else NaN).

  Lemma any_group s i : s < sims -> i < n -> sample_group rt m fit resid s i = map (row_a s i) (seq 0 n).
  Proof.
    intros Hs Hi. unfold sample_group. change (nrows m) with (length os). change (ncols m) with (length ds).
    rewrite Lo, Ld. change (m_idx m) with os. change (m_cols m) with ds. change (m_cells fit) with (mk n n (rc n fi)).
    set (inc := map (fun k => first_fix k (cell (mk n n (rc n fi)) i k)) (seq 0 n)).
    assert (At : forall k, k < n -> at1 inc k = if i + k <? n then Fin (fi i k) else NaN).
    { intros k Hk. unfold at1, inc. rewrite nth_map_seq by auto. cbn [Nat.add]. rewrite cell_mk by lia. unfold rc, first_fix.
      destruct (Nat.ltb_spec (i + k) n) as [A|A].
      - destruct (Nat.eqb_spec k 0) as [->|D]; auto. cbn [andb vltb].
        destruct (qcltb_spec (fi i 0) 0) as [B|B]; auto. exfalso. apply (Qclt_not_le _ _ B). apply Fpos; auto.
      - cbn [vltb]. rewrite andb_false_r. auto. }
    assert (E2 : map (fun k => if isnan (at1 inc k) then NaN
                 else vadd (at1 inc k) (vmul (resid (s * (n * n) + i * n + k)) (rt (at1 inc k)))) (seq 0 n)
               = map (fun k => if presa i k then Fin (X' s i k) else NaN) (seq 0 n)).
    { apply map_seq_ext. intros k Hk. rewrite At by lia. unfold presa.
      destruct (Nat.ltb_spec (i + k) n) as [A|A]; auto. cbn [isnan andb].
      destruct (Rf (s * (n * n) + i * n + k)) as (q & Q).
      { assert (i * n + k < n * n) by nia. nia. }
      destruct (keep k) eqn:D.
      - rewrite (rt_fin' rt (fi i k) Rt) by (apply Fpos; auto). unfold X', X. rewrite Q. reflexivity.
      - destruct Rt as (_ & _ & _ & Rn). rewrite Rn by auto. rewrite Q. reflexivity. }
    rewrite E2. unfold cumsum. rewrite cum_add_opt. apply map_seq_ext. intros k Hk. rewrite At by lia. unfold row_a.
    unfold at1. rewrite !nth_map_seq by lia. cbn [Nat.add]. f_equal.
    - destruct (i + k <? n); auto.
    - unfold presa at 1. unfold presa at 2. destruct (Nat.ltb_spec (i + k) n) as [A|A]; auto. cbn [andb]. destruct (keep k); auto. f_equal.
      rewrite Nat.sub_0_r. unfold T, Ka. rewrite Qcplus_0_l. apply sumf_ext. intros h Hh. unfold presa.
      rewrite (proj2 (Nat.ltb_lt (i + h) n)) by lia. auto.
  Qed.
  Lemma any_tab : samples rt m fit sims resid = cube sims n (fun s i => map (row_a s i) (seq 0 n)).
  Proof.
    unfold samples. change (nrows m) with (length os). rewrite Lo. apply cube_ext. intros s i Hs Hi. apply any_group; auto.
  Qed.

  Lemma any_sel s j : s < sims -> j < n ->
    filter (fun r => (b_sim r =? s) && (b_d r =? d_ j)%Z && negb (isnan (b_cum r)))
      (concat (cube sims n (fun s i => map (row_a s i) (seq 0 n))))
    = map (fun i => row_a s i j) (seq 0 (if keep j then n - j else 0)).
  Proof.
    intros Hs Hj. rewrite concat_flat_map, flat_map_cube, filter_flat_map.
    rewrite (flat_map_one _ sims s); auto.
    - rewrite filter_flat_map. apply flat_map_prefix; [destruct (keep j); lia|]. intros i Hi.
      rewrite filter_map_seq.
      assert (E : filter (fun k => (b_sim (row_a s i k) =? s) && (b_d (row_a s i k) =? d_ j)%Z && negb (isnan (b_cum (row_a s i k)))) (seq 0 n)
                = flat_map (fun k => if k =? j then (if presa i j then [j] else []) else []) (seq 0 n)).
      { apply filter_flat. intros k Hk. apply in_seq in Hk. cbn [row_a b_sim b_d b_cum]. rewrite Nat.eqb_refl. unfold d_.
        rewrite (d_inj os ds n) by (auto; lia). cbn [andb].
        destruct (Nat.eqb_spec k j) as [->|D]; auto. destruct (presa i j); auto. }
      rewrite E, (flat_map_one _ n j); [|lia|intros k Hk D; destruct (Nat.eqb_spec k j); congruence].
      rewrite Nat.eqb_refl. unfold presa. destruct (keep j).
      + rewrite andb_true_r. destruct (Nat.ltb_spec (i + j) n), (Nat.ltb_spec i (n - j)); auto; lia.
      + rewrite andb_false_r. auto.
    - intros s' Hs' D. rewrite filter_flat_map. apply flat_map_none. intros i _. rewrite filter_map_seq.
      cbn [row_a b_sim]. rewrite (proj2 (Nat.eqb_neq s' s) D). cbn [andb].
      generalize (seq 0 n) as l. induction l as [|k l IH]; auto.
  Qed.

  Definition A1 (s j : nat) : Qc := sumf 0 (n - j) (fun i => T s i j).
  Definition A2 (s j : nat) : Qc := sumf 0 (n - 1 - j) (fun i => T s i j).
  Definition acell (s j : nat) : list (nat * Z * val * val) := if keep j then [(s, d_ j, Fin (A1 s j), Fin (A2 s j))] else [].

  Lemma any_agg : agg_rows m cl sims (samples rt m fit sims resid) = flat_map (fun s => flat_map (acell s) (seq 0 n)) (seq 0 sims).
  Proof.
    unfold agg_rows. rewrite any_tab. change (ncols m) with (length ds). rewrite Ld.
    apply flat_map_seq_ext. intros s Hs. apply flat_map_seq_ext. intros j Hj.
    change (m_cols m) with ds. change (m_idx m) with os. fold (d_ j). rewrite any_sel by lia. unfold acell.
    destruct (keep j) eqn:Kj; auto.
    assert (Ec : nth j cl 0 = n - 1 - j) by (unfold cl; apply nth_map_seq; lia). rewrite Ec. fold (o_ (n - 1 - j)).
    assert (Pr : forall i, i < n - j -> b_cum (row_a s i j) = Fin (T s i j)).
    { intros i Hi. cbn [row_a b_cum]. unfold presa. rewrite (proj2 (Nat.ltb_lt (i + j) n)), Kj by lia. auto. }
    assert (E1 : skipsum (map b_cum (map (fun i => row_a s i j) (seq 0 (n - j)))) = Fin (A1 s j)).
    { rewrite map_map. apply skipsum_gen. intros i Hi. apply in_seq in Hi. left. apply Pr. lia. }
    assert (E2 : skipsum (map (fun r => if (b_o r =? o_ (n - 1 - j))%Z then Fin 0%Qc else b_cum r)
                   (map (fun i => row_a s i j) (seq 0 (n - j)))) = Fin (A2 s j)).
    { rewrite map_map. rewrite (skipsum_gen _ _ (fun i => if i <? n - 1 - j then T s i j else 0%Qc)).
      - f_equal. change (sumf 0 (n - j) (fun i => if i <? n - 1 - j then T s i j else 0%Qc) = A2 s j).
        rewrite (sumf_prefix (n - j) (n - 1 - j)); [|lia|].
        + apply sumf_ext. intros i Hi. apply ltb_if. lia.
        + intros i Hi. apply nltb_if. lia.
      - intros i Hi. apply in_seq in Hi. left. rewrite Pr by lia. cbn [row_a b_o]. unfold o_. rewrite (o_inj os ds n) by (auto; lia).
        destruct (Nat.eqb_spec i (n - 1 - j)) as [->|D].
        + rewrite nltb_if by lia. auto.
        + rewrite !ltb_if by lia. auto. }
    rewrite E1, E2. destruct (n - j) eqn:Q; [lia|]. reflexivity.
  Qed.

  (** The factor table. *)
  Definition pair_row (s k : nat) (a b : Qc) : list (nat * Z * val) :=
    match ratio a b with Some q => [(s, d_ k, Fin q)] | None => [] end.
  Definition row_f (s k : nat) : list (nat * Z * val) :=
    if keep k then
      match find keep (seq (S k) (n - 1 - k)) with Some k' => pair_row s k (A1 s k') (A2 s k) | None => [] end
    else [].
  Lemma pair_eq s k a b : (if veqb (Fin b) (Fin 0%Qc) || isnan (Fin b) || isnan (Fin a) then [] else [(s, d_ k, vdiv (Fin a) (Fin b))])
    = pair_row s k a b.
  Proof.
    unfold pair_row, ratio. cbn [isnan veqb]. rewrite !orb_false_r. destruct (qceqb_spec b 0) as [Q|Q]; auto.
    rewrite vdiv_fin by auto. auto.
  Qed.

  Variable Lk : nat.
  Hypothesis HL : Lk < n.
  Hypothesis KL : keep Lk = true.
  Hypothesis GL : forall x, Lk < x < n -> keep x = false.

  Lemma find_none_seq (p : nat -> bool) k : forall a, (forall x, a <= x < a + k -> p x = false) -> find p (seq a k) = None.
  Proof.
    induction k as [|k IH]; intros a H; auto. cbn [seq find]. rewrite H by lia. apply IH. intros x Hx. apply H. lia.
  Qed.
  Lemma find_some_seq (p : nat -> bool) k : forall a y, a <= y < a + k -> p y = true -> (forall x, a <= x < y -> p x = false) ->
    find p (seq a k) = Some y.
  Proof.
    induction k as [|k IH]; intros a y L Py H; [lia|]. cbn [seq find]. destruct (Nat.eq_dec a y) as [->|D].
    - rewrite Py. auto.
    - rewrite H by lia. apply IH; auto; try lia. intros x Hx. apply H. lia.
  Qed.
  Lemma row_f_gap s p a : (forall x, p < x < a -> keep x = false) -> p < a -> flat_map (row_f s) (seq (S p) (a - S p)) = [].
  Proof.
    intros G L. apply flat_map_none. intros x Hx. apply in_seq in Hx. unfold row_f. rewrite G by lia. auto.
  Qed.

  Lemma any_block s r : forall c a p, a + c = n -> p < a -> keep p = true -> (forall x, p < x < a -> keep x = false) ->
    ldf_rows (Some (d_ p, Fin (A2 s p))) (flat_map (acell s) (seq a c) ++ r)
    = flat_map (row_f s) (seq p (n - p)) ++ ldf_rows (Some (d_ Lk, Fin (A2 s Lk))) r.
  Proof.
    induction c as [|c IH]; intros a p E L Kp G.
    - assert (p = Lk).
      { destruct (Nat.lt_total p Lk) as [Q|[Q|Q]]; auto.
        - rewrite G in KL by lia. discriminate.
        - rewrite GL in Kp by lia. discriminate. }
      subst p. cbn [seq flat_map app].
      assert (Z : flat_map (row_f s) (seq Lk (n - Lk)) = []).
      { apply flat_map_none. intros x Hx. apply in_seq in Hx. unfold row_f. destruct (keep x) eqn:Kx; auto.
        rewrite find_none_seq; auto. intros y Hy. apply GL. lia. }
      rewrite Z. auto.
    - cbn [seq flat_map]. unfold acell at 1. destruct (keep a) eqn:Ka'.
      + cbn [app ldf_rows]. rewrite (IH (S a) a) by (auto; try lia; intros; lia). rewrite pair_eq.
        replace (seq p (n - p)) with (p :: seq (S p) (a - S p) ++ seq a (n - a)).
        2:{ replace (n - p) with (S (a - S p + (n - a))) by lia. cbn [seq]. f_equal. rewrite seq_app. do 2 f_equal; lia. }
        cbn [flat_map]. rewrite flat_map_app, row_f_gap by auto. cbn [app]. rewrite <- app_assoc. f_equal.
        unfold row_f. rewrite Kp. rewrite (find_some_seq keep _ _ a); [reflexivity|lia|auto|intros x Hx; apply G; lia].
      + cbn [app]. apply IH; auto; try lia. intros x Hx. destruct (Nat.eq_dec x a) as [->|D]; auto. apply G. lia.
  Qed.

  Definition lead_a (s : nat) : list (nat * Z * val) :=
    match s with O => [] | S q => pair_row s Lk (A1 s 0) (A2 q Lk) end.
  Lemma any_blocks k : forall a,
    ldf_rows (match a with O => None | S q => Some (d_ Lk, Fin (A2 q Lk)) end) (flat_map (fun s => flat_map (acell s) (seq 0 n)) (seq a k))
    = flat_map (fun s => lead_a s ++ flat_map (row_f s) (seq 0 n)) (seq a k).
  Proof.
    induction k as [|k IH]; intros a; [destruct a; auto|]. cbn [seq flat_map].
    remember (flat_map (fun s => flat_map (acell s) (seq 0 n)) (seq (S a) k)) as rest eqn:Er.
    rewrite (seq_first n) at 1 by auto. cbn [flat_map]. unfold acell at 1. rewrite Kp0. cbn [app ldf_rows].
    rewrite (any_block a rest (n - 1) 1 0) by (auto; try lia; intros; lia). rewrite Er.
    assert (I := IH (S a)). cbn iota in I. rewrite I. rewrite Nat.sub_0_r, <- app_assoc. f_equal.
    destruct a as [|q]; auto. apply pair_eq.
  Qed.

  Let fv s k := factor n keep T s k.
  Lemma any_at s j : s < sims -> j < n ->
    ldf_at (bs_ldfs m cl sims (samples rt m fit sims resid)) s (d_ j) = known (fv s j).
  Proof.
    intros Hs Hj. unfold bs_ldfs. rewrite any_agg.
    assert (Q := any_blocks sims 0). cbn iota in Q. rewrite Q. unfold ldf_at. rewrite find_flat, filter_flat_map.
    assert (Pn : forall s' k a b, (s' =? s) && (d_ k =? d_ j)%Z = false ->
      filter (fun r : nat * Z * val => (fst (fst r) =? s) && (snd (fst r) =? d_ j)%Z) (pair_row s' k a b) = []).
    { intros s' k a b H. unfold pair_row. destruct (ratio a b); auto. cbn [filter fst snd]. rewrite H. auto. }
    assert (Py : forall a b, 
      filter (fun r : nat * Z * val => (fst (fst r) =? s) && (snd (fst r) =? d_ j)%Z) (pair_row s j a b) = pair_row s j a b).
    { intros a b. unfold pair_row. destruct (ratio a b); auto. cbn [filter fst snd]. rewrite Nat.eqb_refl, Z.eqb_refl. auto. }
    rewrite (flat_map_one _ sims s); auto.
    2:{ intros s' Hs' D. rewrite filter_app, filter_flat_map.
        assert (N : forall k a b, filter (fun r : nat * Z * val => (fst (fst r) =? s) && (snd (fst r) =? d_ j)%Z) (pair_row s' k a b) = []).
        { intros. apply Pn. rewrite (proj2 (Nat.eqb_neq s' s) D). auto. }
        rewrite flat_map_none.
        - rewrite app_nil_r. destruct s' as [|q]; auto. apply N.
        - intros k _. unfold row_f. destruct (keep k); auto. destruct (find _ _); auto. }
    rewrite filter_app, filter_flat_map.
    assert (Dk : forall k, k < n -> k <> j -> (s =? s) && (d_ k =? d_ j)%Z = false).
    { intros k Hk D. unfold d_. rewrite (d_inj os ds n) by auto. rewrite (proj2 (Nat.eqb_neq k j) D). apply andb_false_r. }
    rewrite (flat_map_one _ n j); auto.
    2:{ intros k Hk D. unfold row_f. destruct (keep k); auto. destruct (find _ _); auto. }
    assert (Ld' : filter (fun r : nat * Z * val => (fst (fst r) =? s) && (snd (fst r) =? d_ j)%Z) (lead_a s) = if j =? Lk then lead_a s else []).
    { unfold lead_a. destruct s as [|q]; [destruct (j =? Lk); auto|]. destruct (Nat.eqb_spec j Lk) as [->|D].
      - apply Py.
      - apply Pn. apply Dk; auto. }
    rewrite Ld'. unfold fv, factor, row_f. destruct (keep j) eqn:Kj.
    - destruct (find keep (seq (S j) (n - 1 - j))) as [k'|] eqn:F.
      + assert (D : j <> Lk).
        { intros ->. rewrite find_none_seq in F; [discriminate|]. intros y Hy. apply GL. lia. }
        rewrite (proj2 (Nat.eqb_neq j Lk) D). cbn [app]. rewrite Py. unfold pair_row. fold (A1 s k') (A2 s j).
        destruct (ratio _ _); auto.
      + assert (j = Lk).
        { destruct (Nat.lt_total j Lk) as [D|[D|D]]; auto.
          - assert (I := find_none _ _ F Lk). rewrite I in KL; [discriminate|]. apply in_seq. lia.
          - rewrite GL in Kj by lia. discriminate. }
        subst j. rewrite Nat.eqb_refl. cbn [filter]. rewrite app_nil_r. unfold lead_a. destruct s as [|q]; auto.
        unfold pair_row. replace (A1 (S q) 0) with (sumf 0 n (fun i => T (S q) i 0)) by (unfold A1; rewrite Nat.sub_0_r; reflexivity).
        fold (A2 q Lk). destruct (ratio _ _); auto.
    - destruct (Nat.eqb_spec j Lk); [congruence|]. auto.
  Qed.

  Lemma any_end s : fv s (n - 1) = None.
  Proof.
    unfold fv, factor. destruct (keep (n - 1)); auto. replace (n - 1 - (n - 1)) with 0 by lia. cbn [seq find].
    destruct s as [|q]; auto.
  Qed.

  Let lt := bs_ldfs m cl sims (samples rt m fit sims resid).
  Lemma any_fc s i : i < n -> fc_part lad (map (row_a s i) (seq 0 n)) = map (row_a s i) (seq (n - 1 - i) (S i)).
  Proof.
    intro Hi. unfold fc_part. rewrite filter_map_seq. f_equal. cbn [row_a b_o b_d].
    rewrite (filter_from os ds n Lo Ld ltac:(lia) _ (n - 1 - i)); [f_equal; lia|lia|].
    intros j Hj. unfold lad, o_. rewrite (ladev_eq os ds n) by (auto; lia). apply (leb_d os ds n); auto; lia.
  Qed.
  Lemma any_act s i : i < n -> act_part lad (map (row_a s i) (seq 0 n)) = map (row_a s i) (seq 0 (n - 1 - i)).
  Proof.
    intro Hi. unfold act_part. rewrite filter_map_seq. f_equal. cbn [row_a b_o b_d].
    apply filter_seq_prefix; [lia|]. intros j Hj. unfold lad, o_, d_. rewrite (ladev_eq os ds n) by (auto; lia).
    rewrite (leb_d os ds n) by (auto; lia).
    destruct (Nat.leb_spec (n - 1 - i) j), (Nat.ltb_spec j (n - 1 - i)); auto; lia.
  Qed.
  Lemma any_first s i : i < n -> is_first m (map (row_a s i) (seq 0 n)) = (i =? 0).
  Proof.
    intro Hi. unfold is_first. rewrite (seq_first n) by lia. cbn [map]. cbn [row_a b_o].
    change (m_idx m) with os.
    assert (Zf : zmin os = nth 0 os 0%Z).
    { apply (zmin_first os ds n C (fun _ _ => 0%Qc)) with (sims := 0) (resid := fun _ => NaN); auto; try lia.
      intros; apply Qcle_refl. }
    rewrite Zf. unfold o_. apply (o_inj os ds n); auto; lia.
  Qed.
  Lemma any_cl s i : s < sims -> i < n ->
    cum_ldfs lad lt (map (row_a s i) (seq 0 n)) = cumprod (map (fun k => known (fv s k)) (seq (n - 1 - i) (S i))).
  Proof.
    intros Hs Hi. unfold cum_ldfs. f_equal. rewrite any_fc, map_map by auto. apply map_ext_in.
    intros j Hj. apply in_seq in Hj. cbn [row_a b_sim b_d]. apply any_at; auto. lia.
  Qed.
  Lemma any_last s i : i < n -> last (NaN :: cumprod (map (fun k => known (fv s k)) (seq (n - 1 - i) (S i)))) NaN = NaN.
  Proof.
    intro Hi. unfold cumprod. apply cumprod_last; [discriminate|].
    rewrite seq_S, map_app. cbn [map]. rewrite last_last. replace (n - 1 - i + i) with (n - 1) by lia. rewrite any_end. auto.
  Qed.

  (** Products with missing factors. *)
  Lemma cum_mul_opt (f : nat -> option Qc) k : forall b a,
    cum_from vmul (Fin a) (map (fun j => known (f j)) (seq b k))
    = map (fun j => match f j with None => NaN | Some _ => Fin (a * prodf b (S j - b) (fun h => or_ 1 (f h)))%Qc end) (seq b k).
  Proof.
    induction k as [|k IH]; intros b a; auto. cbn [seq map cum_from].
    destruct (f b) as [x|] eqn:Q; cbn [known isnan vmul]; rewrite IH; f_equal.
    - f_equal. replace (S b - b) with 1 by lia. rewrite prodf_Sl, prodf_0, Q. cbn [or_]. ring.
    - apply map_seq_ext. intros j Hj. destruct (f j); auto. f_equal.
      replace (S j - b) with (S (S j - S b)) by lia. rewrite prodf_Sl, Q. cbn [or_]. ring.
    - apply map_seq_ext. intros j Hj. destruct (f j); auto. f_equal.
      replace (S j - b) with (S (S j - S b)) by lia. rewrite prodf_Sl, Q. cbn [or_]. ring.
  Qed.
  Definition shifted (s i j : nat) : val :=
    match fv s (j - 1) with
    | None => NaN
    | Some _ => Fin (prodf (n - 1 - i) (j - (n - 1 - i)) (fun k => or_ 1 (fv s k)))
    end.
  Lemma any_shift s i : 0 < i < n ->
    removelast (NaN :: cumprod (map (fun k => known (fv s k)) (seq (n - 1 - i) (S i))))
    = NaN :: map (shifted s i) (seq (n - i) i).
  Proof.
    intro Hi. unfold cumprod. rewrite cum_mul_opt, seq_S, map_app. cbn [map].
    rewrite app_comm_cons, removelast_last. f_equal. replace (n - i) with (S (n - 1 - i)) by lia.
    rewrite <- (seq_shift i (n - 1 - i)), map_map. apply map_seq_ext. intros j Hj. unfold shifted.
    replace (S j - 1) with j by lia. destruct (fv s j); auto. f_equal. ring.
  Qed.

  Let P s i := path n keep (fv s) (T s) i.
  Definition rec_a (s i j : nat) : simrow :=
    mkS s (o_ i) (d_ j) (negb (i + j <? n)) (known (step ds (P s i) j)) (known (P s i j)).
  Definition la_a (s i : nat) : option Qc :=
    if (i =? 0) then None else if keep (n - 1 - i) then Some (T s i (n - 1 - i)) else None.

  Lemma steps_known (p : nat -> option Qc) k : forall a prev,
    prev = match a with O => NaN | S h => known (p h) end ->
    incr_from prev (combine (map (fun j => nth j ds 0%Z) (seq a k)) (map (fun j => known (p j)) (seq a k)))
    = map (fun j => known (step ds p j)) (seq a k).
  Proof.
    induction k as [|k IH]; intros a prev E; auto. cbn [seq map combine incr_from]. rewrite (IH (S a) (known (p a))) by auto. f_equal.
    unfold step. destruct (p a) as [x|].
    - cbn [known]. rewrite E. destruct (nth a ds 0 =? 1)%Z; destruct a as [|h]; try (destruct (p h) as [y|]);
        cbn [known vsub vneg vadd vmul nan0 isnan]; f_equal; ring.
    - cbn [known]. rewrite vmul_nan_r. reflexivity.
  Qed.
  Lemma set_known s i : set_cum_inc (map (row_a s i) (seq 0 n)) (map (fun j => known (P s i j)) (seq 0 n)) = map (rec_a s i) (seq 0 n).
  Proof.
    unfold set_cum_inc. rewrite map_map.
    change (map (fun x => b_d (row_a s i x)) (seq 0 n)) with (map (fun k => nth k ds 0%Z) (seq 0 n)).
    rewrite (steps_known (P s i) n 0 NaN) by auto.
    assert (G : forall l, map (fun p => let r := fst p in mkS (b_sim r) (b_o r) (b_d r) (b_fc r) (snd (snd p)) (fst (snd p)))
       (combine (map (row_a s i) l) (combine (map (fun k => known (P s i k)) l) (map (fun k => known (step ds (P s i) k)) l)))
       = map (rec_a s i) l).
    { induction l as [|k l IH]; auto. cbn [map combine]. apply (f_equal2 cons); [|exact IH]. auto. }
    apply G.
  Qed.

  Lemma any_fcast s i : s < sims -> i < n ->
    fcast m lad lt (map (row_a s i) (seq 0 n)) = (known (la_a s i), map (rec_a s i) (seq 0 n)).
  Proof.
    intros Hs Hi. unfold fcast. rewrite any_first by auto. unfold la_a.
    assert (Pr : forall j, i + j < n -> b_cum (row_a s i j) = if keep j then Fin (T s i j) else NaN).
    { intros j L. cbn [row_a b_cum]. unfold presa. rewrite (proj2 (Nat.ltb_lt _ _)) by lia. auto. }
    destruct (Nat.eqb_spec i 0) as [->|Di].
    { f_equal. rewrite <- set_known. f_equal. rewrite map_map. apply map_seq_ext. intros j Hj. rewrite Pr by lia.
      unfold P, path. cbn [Nat.eqb]. destruct (keep j); auto. }
    assert (Ep : P s i = path n keep (fv s) (T s) i) by auto. unfold path in Ep. rewrite (proj2 (Nat.eqb_neq i 0) Di) in Ep.
    assert (La : l_act_cum lad (map (row_a s i) (seq 0 n)) = if keep (n - 1 - i) then Fin (T s i (n - 1 - i)) else NaN).
    { unfold l_act_cum. rewrite any_fc by lia. cbn [seq map]. apply Pr. lia. }
    rewrite La. f_equal; [destruct (keep (n - 1 - i)); auto|].
    rewrite any_act, any_fc by lia. rewrite <- map_app, <- seq_app. replace (n - 1 - i + S i) with n by lia.
    rewrite <- set_known. f_equal. unfold fc_cums. rewrite La, any_cl, any_fc, any_act, any_shift by lia.
    replace (seq 0 n) with (seq 0 (n - 1 - i) ++ seq (n - 1 - i) (S i)) by (rewrite <- seq_app; f_equal; lia).
    rewrite map_app. f_equal.
    - rewrite map_map. apply map_ext_in. intros j Hj. apply in_seq in Hj. rewrite Pr, Ep by lia.
      rewrite (proj2 (Nat.ltb_lt j (n - 1 - i))) by lia. destruct (keep j); auto.
    - cbn [seq map combine]. replace (S (n - 1 - i)) with (n - i) by lia. f_equal.
      + unfold cum_final. cbn [fst snd]. rewrite Pr, Ep by lia. rewrite Nat.ltb_irrefl, Nat.eqb_refl.
        destruct (keep (n - 1 - i)); cbn [negb vmul nan0 isnan vadd known]; f_equal; ring.
      + rewrite combine_map_lr, map_map. apply map_seq_ext. intros j Hj. unfold cum_final. cbn [fst snd row_a b_cum]. unfold presa.
        rewrite (proj2 (Nat.ltb_ge (i + j) n)) by lia. cbn [andb nan0 isnan]. rewrite Ep.
        rewrite (proj2 (Nat.ltb_ge j (n - 1 - i))), (proj2 (Nat.eqb_neq j (n - 1 - i))) by lia. unfold shifted.
        destruct (keep (n - 1 - i)); cbn [negb]; [destruct (fv s (j - 1))|];
          cbn [vmul nan0 isnan vadd known]; f_equal; ring.
  Qed.

  Variable c : Qc.
  Hypothesis Cp : (0 < c)%Qc.
  Variable gam : list (val * val) -> nat -> val.
  Variable V : nat -> nat -> nat -> Qc -> Qc.
  Hypothesis Gm : forall ps s i j a, s < sims -> 0 < i < n -> j < n -> (0 <= a)%Qc ->
    nth (s * (n * n) + i * n + j) ps (NaN, NaN) = (Fin a, Fin c) -> gam ps (s * (n * n) + i * n + j) = Fin (V s i j a).

  Lemma cum_add_last (f : nat -> option Qc) k : forall b a, 0 < k ->
    last (cum_from vadd (Fin a) (map (fun j => known (f j)) (seq b k))) NaN
    = match f (b + k - 1) with None => NaN | Some _ => Fin (a + sumf b k (fun j => or_ 0 (f j)))%Qc end.
  Proof.
    induction k as [|k IH]; intros b a K; [lia|]. cbn [seq map cum_from]. destruct k as [|k].
    - cbn [seq map]. replace (b + 1 - 1) with b by lia. rewrite sumf_Sl, sumf_0.
      destruct (f b); cbn [known isnan vadd cum_from last or_]; auto. f_equal. ring.
    - assert (NE : forall x, cum_from vadd x (map (fun j => known (f j)) (seq (S b) (S k))) <> []).
      { intro x. cbn [seq map cum_from]. destruct (isnan _); discriminate. }
      rewrite sumf_Sl. replace (b + S (S k) - 1) with (S b + S k - 1) by lia.
      destruct (f b) as [x|] eqn:Q; cbn [known isnan vadd].
      + rewrite <- Q. assert (I := IH (S b) (a + x)%Qc ltac:(lia)).
        destruct (cum_from vadd (Fin (a + x)) (map (fun j => known (f j)) (seq (S b) (S k)))) eqn:Z; [exfalso; exact (NE _ Z)|].
        change (last (v :: l) NaN = match f (S b + S k - 1) with None => NaN | Some _ =>
          Fin (a + (or_ 0 (f b) + sumf (S b) (S k) (fun j => or_ 0 (f j))))%Qc end). rewrite I, Q. destruct (f (S b + S k - 1)); auto. cbn [or_]. f_equal. ring.
      + assert (I := IH (S b) a ltac:(lia)).
        destruct (cum_from vadd (Fin a) (map (fun j => known (f j)) (seq (S b) (S k)))) eqn:Z; [exfalso; exact (NE _ Z)|].
        change (last (v :: l) NaN = match f (S b + S k - 1) with None => NaN | Some _ =>
          Fin (a + (or_ 0 None + sumf (S b) (S k) (fun j => or_ 0 (f j))))%Qc end). rewrite I. destruct (f (S b + S k - 1)); auto. cbn [or_]. f_equal. ring.
  Qed.

  Definition ult_a (s i : nat) : option Qc :=
    if (i =? 0) && negb (keep (n - 1)) then None else Some (total n ds (P s i) c (V s i) i).
  Lemma step_some s i j : 0 < i -> i < n -> n - 1 - i <= j -> exists x, step ds (P s i) j = Some x.
  Proof.
    intros Hi Hn' Hj. unfold step. assert (exists a, P s i j = Some a) as (a & ->); [|eauto].
    unfold P, path. rewrite (proj2 (Nat.eqb_neq i 0)), (proj2 (Nat.ltb_ge j (n - 1 - i))) by lia.
    destruct (keep (n - 1 - i)) eqn:K; cbn [negb]; eauto. destruct (Nat.eqb_spec j (n - 1 - i)) as [->|D].
    - rewrite K. eauto.
    - destruct (fv s (j - 1)); eauto.
  Qed.

  Definition fin_a (s i j : nat) : option Qc :=
    if i + j <? n then step ds (P s i) j
    else Some (let x := or_ 0 (step ds (P s i) j) in sign_ x * V s i j (abs_ x / c))%Qc.
  Lemma any_fcs : forecasts m lad lt NaN (samples rt m fit sims resid)
    = cube sims n (fun s i => (known (la_a s i), map (rec_a s i) (seq 0 n))).
  Proof.
    transitivity (map (fcast m lad lt) (samples rt m fit sims resid)).
    - apply forecasts_map. intros g Hg _. rewrite any_tab in Hg. apply in_cube in Hg as (s & i & Hs & Hi & ->).
      rewrite any_cl by auto. apply any_last. auto.
    - rewrite any_tab, map_cube. apply cube_ext. intros s i Hs Hi. apply any_fcast; auto.
  Qed.
  Lemma any_fincs s i : s < sims -> i < n ->
    fincs (gam (gparams (Fin c) (forecasts m lad lt NaN (samples rt m fit sims resid)))) ((s * n + i) * n) (map (rec_a s i) (seq 0 n))
    = map (fun k => known (fin_a s i k)) (seq 0 n).
  Proof.
    intros Hs Hi. set (fcs := forecasts m lad lt NaN (samples rt m fit sims resid)).
    assert (Ef : fcs = cube sims n (fun s i => (known (la_a s i), map (rec_a s i) (seq 0 n)))) by apply any_fcs.
    assert (En : nrows m = n) by (change (nrows m) with (length os); auto).
    assert (Ec : ncols m = n) by (change (ncols m) with (length ds); auto).
    assert (Lfc : length fcs = sims * nrows m) by (rewrite Ef, En; apply cube_length).
    assert (Kf : forall s i, s < sims -> i < nrows m ->
      map key (snd (nth (s * nrows m + i) fcs (NaN, []))) = map (fun d => (s, nth i (m_idx m) 0%Z, d)) (m_cols m)).
    { intros s' i' Hs' Hi'. rewrite En in *. rewrite Ef, cube_nth by auto. cbn [snd]. rewrite map_map.
      change (m_cols m) with ds.
      transitivity (map (fun d => (s', nth i' (m_idx m) 0%Z, d)) (map (fun j => nth j ds 0%Z) (seq 0 (length ds)))).
      - rewrite Ld, map_map. apply map_ext. auto.
      - rewrite map_nth_seq. auto. }
    assert (Gp := fun k => gparams_any m (Fin c) sims fcs Lfc Kf s i k ltac:(lia)). rewrite En, Ec in Gp.
    rewrite Ef in Gp. rewrite cube_nth in Gp by auto. cbn [snd] in Gp. rewrite <- Ef in Gp.
    assert (Z0 : c <> 0%Qc) by (apply qc_pos_neq; auto).
    unfold fincs. rewrite map_length, seq_length.
      assert (G : forall k a, a + k <= n -> map (fun p => final_incr (gam (gparams (Fin c) fcs)) (fst p) (snd p))
          (combine (seq ((s * n + i) * n + a) k) (map (rec_a s i) (seq a k))) = map (fun k => known (fin_a s i k)) (seq a k)).
      { induction k as [|k IH]; intros a A; auto. cbn [seq map combine]. f_equal.
        - cbn [fst snd]. unfold final_incr. cbn [rec_a b_fc b_inc]. unfold fin_a.
          destruct (Nat.ltb_spec (i + a) n) as [B|B]; auto. cbn [negb].
          destruct (step_some s i a) as (x & Ex); try lia.
          assert (Ga := Gp a ltac:(lia) ltac:(lia)). rewrite nth_map_seq in Ga by lia. cbn [Nat.add rec_a b_inc] in Ga.
          rewrite Ex in Ga |- *. cbn [known or_] in *.
          rewrite vdiv_fin, vabs_fin, abs_div in Ga by auto.
          assert (Ep : (s * n + i) * n + a = s * (n * n) + i * n + a) by nia. rewrite Ep in Ga |- *.
          assert (Aq : (0 <= abs_ x / c)%Qc).
          { unfold Qcdiv. apply qc_mul_nonneg; [apply abs_nn|apply Qclt_le_weak, qc_inv_pos; auto]. }
          rewrite (Gm _ s i a _ ltac:(lia) ltac:(lia) ltac:(lia) Aq Ga).
          unfold vltb, sign_. destruct (qcltb 0 _); cbn [vmul]; f_equal; ring.
        - rewrite <- Nat.add_succ_r. apply IH. lia. }
      assert (G0 := G n 0 ltac:(lia)). rewrite Nat.add_0_r in G0. exact G0.
  Qed.

  Lemma any_records : simulate rt m cl rl fit (Fin c) sims resid gam
      = flat_map (fun i => map (fun s => rec_of s (o_ i) (known (la_a s i)) (known (ult_a s i))) (seq 0 sims)) (seq 0 n).
  Proof.
    unfold simulate. fold lt.
    change (fun o : Z => match zfind o (m_idx m) with Some i => nth (nth i rl 0) (m_cols m) 0%Z | None => 0%Z end) with lad.
    set (tab := samples rt m fit sims resid).
    assert (Tab : tab = cube sims n (fun s i => map (row_a s i) (seq 0 n))) by apply any_tab.
    assert (Nd : m_cols m <> []). { change (ds <> []). intro Q. rewrite Q in Ld. simpl in Ld. lia. }
    assert (Sg : forall g, In g tab -> gsorted g).
    { intros g Hg. rewrite Tab in Hg. apply in_cube in Hg as (s & i & Hs & Hi & ->).
      apply (group_sorted _ s (nth i os 0%Z) ds Sd). rewrite <- any_group by auto. rewrite group_key. reflexivity. }
    assert (Fk := forecasts_keys m lad lt tab Sg NaN).
    assert (Ef : forecasts m lad lt NaN tab = map (fcast m lad lt) tab).
    { apply forecasts_map. intros g Hg _. rewrite Tab in Hg. apply in_cube in Hg as (s & i & Hs & Hi & ->).
      rewrite any_cl by auto. apply any_last. auto. }
    set (fcs := forecasts m lad lt NaN tab) in *.
    assert (Lt : length tab = sims * n) by (rewrite Tab; apply cube_length).
    assert (En : nrows m = n) by (change (nrows m) with (length os); auto).
    assert (Ec : ncols m = n) by (change (ncols m) with (length ds); auto).
    assert (Lfc : length fcs = sims * nrows m) by (rewrite Ef, map_length, En; auto).
    assert (At : forall s i, s < sims -> i < n -> nth (s * n + i) fcs (NaN, []) = fcast m lad lt (map (row_a s i) (seq 0 n))).
    { intros s i Hs Hi. rewrite Ef, Tab, map_cube, cube_nth by auto. reflexivity. }
    assert (Kf : forall s i, s < sims -> i < nrows m ->
      map key (snd (nth (s * nrows m + i) fcs (NaN, []))) = map (fun d => (s, nth i (m_idx m) 0%Z, d)) (m_cols m)).
    { intros s i Hs Hi. rewrite En in *. assert (Q := forall2_nth _ _ _ [] (NaN, []) (s * n + i) Fk).
      rewrite Lt in Q. destruct Q as (Q & _); [nia|]. rewrite Q, Tab, cube_nth by auto. rewrite <- any_group by auto. apply group_key. }
    assert (Ra := records_any m (Fin c) sims fcs So Sd Nd Lfc Kf gam). rewrite En, Ec in Ra. rewrite Ra.
    apply flat_map_seq_ext. intros i Hi. apply map_seq_ext. intros s Hs.
    assert (Gp := fun k => gparams_any m (Fin c) sims fcs Lfc Kf s i k ltac:(lia)). rewrite En, Ec in Gp.
    rewrite At in * by lia. rewrite any_fcast in * by lia. cbn [fst snd] in *. f_equal.
    assert (Fi := any_fincs s i ltac:(lia) ltac:(lia)). fold tab in Fi. fold fcs in Fi. set (fin := fin_a s i) in *.
    rewrite Fi. unfold cumsum. rewrite cum_add_last by lia. cbn [Nat.add]. unfold ult_a.
    assert (Et : sumf 0 n (fun j => or_ 0 (fin j)) = total n ds (P s i) c (V s i) i).
    { unfold total. apply sumf_ext. intros j Hj. unfold fin, fin_a, booked. destruct (i + j <? n); auto. }
    rewrite Et. destruct (Nat.eqb_spec i 0) as [->|Di]; cbn [andb].
    - unfold fin, fin_a. rewrite (proj2 (Nat.ltb_lt (0 + (n - 1)) n)) by lia. unfold step, P, path. cbn [Nat.eqb].
      destruct (keep (n - 1)); cbn [negb known]; auto. f_equal. ring.
    - unfold fin, fin_a. rewrite (proj2 (Nat.ltb_ge (i + (n - 1)) n)) by lia. cbn [known]. f_equal. ring.
  Qed.
End All.

Lemma find_last_kept (keep : nat -> bool) n : 0 < n -> keep 0 = true ->
  exists L, L < n /\ keep L = true /\ forall x, L < x < n -> keep x = false.
Proof.
  intros Hn K0. induction n as [|n IH]; [lia|]. destruct (keep n) eqn:Q.
  - exists n. repeat split; auto. intros; lia.
  - destruct n as [|n]; [congruence|]. destruct IH as (L & A & B & G); [lia|]. exists L. repeat split; auto.
    intros x Hx. destruct (Nat.eq_dec x (S n)) as [->|D]; auto. apply G. lia.
Qed.
Lemma factor_ext n keep T T' s k : k < n -> (forall q i j, q <= s -> i + j < n -> T q i j = T' q i j) ->
  factor n keep T s k = factor n keep T' s k.
Proof.
  intros Hk H. unfold factor. destruct (keep k); auto. destruct (find keep (seq (S k) (n - 1 - k))) as [k'|] eqn:F.
  - apply find_some in F as (F & _). apply in_seq in F. apply (f_equal2 ratio); apply sumf_ext; intros x Hx; apply H; lia.
  - destruct s as [|q]; auto. apply (f_equal2 ratio); apply sumf_ext; intros x Hx; apply H; lia.
Qed.
Lemma path_ext n keep f f' T T' i j : i < n -> j < n -> (forall k, k < n -> f k = f' k) ->
  (forall i j, i + j < n -> T i j = T' i j) -> path n keep f T i j = path n keep f' T' i j.
Proof.
  intros Hi Hj Hf HT. unfold path. destruct (Nat.eqb_spec i 0) as [->|Di].
  - destruct (keep j); auto. rewrite HT by lia. auto.
  - destruct (Nat.ltb_spec j (n - 1 - i)).
    + destruct (keep j); auto. rewrite HT by lia. auto.
    + destruct (keep (n - 1 - i)) eqn:K; auto. cbn [negb]. destruct (Nat.eqb_spec j (n - 1 - i)) as [->|D].
      * rewrite K, HT by lia. auto.
      * rewrite Hf by lia. destruct (f' (j - 1)); auto. rewrite HT by lia. do 2 f_equal. apply prodf_ext. intros k Hk. rewrite Hf by lia. auto.
Qed.
Lemma total_ext n ds p p' c V i : (forall j, j < n -> p j = p' j) -> total n ds p c V i = total n ds p' c V i.
Proof.
  intro H. unfold total. apply sumf_ext. intros j Hj. unfold booked.
  assert (E : step ds p j = step ds p' j).
  { unfold step. rewrite H by lia. destruct (p' j); auto. destruct j as [|h]; auto. rewrite H by lia. auto. }
  rewrite E. auto.
Qed.

Section Call.
  Variables (gm : list val -> val) (rt : val -> val) (root : Qc -> Qc) (m : lmat) (n : nat) (C M : nat -> nat -> Qc)
         (cl rl : list nat) (ind : list (list val)) (w : nat -> nat -> bool) (sims : nat) (par : bool)
         (rng : list val -> (nat -> val) * (list (val * val) -> nat -> val)) (b : boot_result) (c : Qc)
         (E : nat -> nat -> nat -> Qc) (V : nat -> nat -> nat -> Qc -> Qc).
  Hypothesis R : regular m n C.
  Hypothesis P : positive n C.
  Hypothesis Hn : 2 < n.
  Hypothesis Ev : tail_fits (m_cols m).
  Hypothesis Hi : forall i j, i + j < n - 1 -> cell ind i j = Fin (if w i j then 1 else 0)%Qc.
  Hypothesis Hl : forall j, j < n - 1 -> w (n - 2 - j) j = true.
  Hypothesis Cl : clvi m = Ok cl.
  Hypothesis Rl : rlvi m = Ok rl.
  Hypothesis Rt : root_like rt.
  Hypothesis Ro : forall q, (0 <= q)%Qc -> rt (Fin q) = Fin (root q).
  Hypothesis B : boot_cl gm rt (mkTri m "origin" "dev" "value") cl rl ind sims par rng = Ok b.
  Hypothesis Sc : o_scale b = Fin c.
  Hypothesis Cp : (0 < c)%Qc.
  Hypothesis Rm : regular (o_fit_incr b) n M.
  Hypothesis He : forall s i j, s < sims -> i < n -> j < n -> fst (rng (o_dist b)) (s * (n * n) + i * n + j) = Fin (E s i j).
  Hypothesis Hv : forall ps s i j a, s < sims -> i < n -> j < n -> (0 <= a)%Qc ->
    nth (s * (n * n) + i * n + j) ps (NaN, NaN) = (Fin a, Fin c) ->
    snd (rng (o_dist b)) ps (s * (n * n) + i * n + j) = Fin (V s i j a).
  Let keep := alive n C.
  Let T s := resampled_at keep M (E s) root.
  Let losses s i := path n keep (factor n keep T s) (T s) i.
  Let u s i := total n (m_cols m) (losses s i) c (V s i) i.
  Let ultimate s i := if (i =? 0) && negb (keep (n - 1)) then NaN else Fin (u s i).
  Let has_latest i := negb (i =? 0) && keep (n - 1 - i).

  Lemma any_setup : exists fi,
    m = rmat (m_idx m) (m_cols m) n C /\
    cl = map (fun j => n - 1 - j) (seq 0 n) /\ rl = map (fun i => n - 1 - i) (seq 0 n) /\
    o_fit_incr b = rmat (m_idx m) (m_cols m) n fi /\
    (forall i j, i + j < n -> keep j = true -> (0 <= fi i j)%Qc) /\
    (forall i j, i + j < n -> keep j = false -> (fi i j < 0)%Qc) /\
    (forall s i j, s < sims -> i + j < n -> Ka n fi keep rt (fst (rng (o_dist b))) s i j = T s i j) /\
    (forall k, k < sims * (n * n) -> exists q, fst (rng (o_dist b)) k = Fin q) /\
    o_reserves b = simulate rt m cl rl (rmat (m_idx m) (m_cols m) n fi) (Fin c) sims (fst (rng (o_dist b))) (snd (rng (o_dist b))).
  Proof.
    assert (R' := R). apply regular_rmat in R' as (Em & So & Sd & Lo & Ld).
    assert (El : cl = map (fun j => n - 1 - j) (seq 0 n) /\ rl = map (fun i => n - 1 - i) (seq 0 n)).
    { assert (Cl' := Cl). assert (Rl' := Rl). rewrite Em in Cl', Rl'. rewrite r_clvi in Cl' by (auto; lia). rewrite r_rlvi in Rl' by (auto; lia).
      split; congruence. }
    destruct El as (El & Er).
    assert (B' := B). rewrite (boot_eq m n C R P Hn Ev ind w Hi Hl) in B'. cbv zeta in B'.
    destruct (negb par && _ && _); [discriminate|]. injection B' as Eb.
    set (fi := incr_of (fitc n C (vol_factor n C))) in *.
    assert (Ed : o_dist b = sampling_dist (ra m n C rt)) by (rewrite <- Eb; reflexivity).
    assert (Es : scale_param m (ru m n C rt) = Fin c) by (rewrite <- Sc, <- Eb; reflexivity).
    assert (Efi : o_fit_incr b = rmat (m_idx m) (m_cols m) n fi) by (rewrite <- Eb; reflexivity).
    rewrite Es in Eb. set (resid := fst (rng (o_dist b))) in *. set (gam := snd (rng (o_dist b))) in *.
    assert (Vp : forall k, k < n - 1 -> (0 < vol_factor n C k)%Qc) by (intros k Hk; apply vol_pos; auto; lia).
    assert (St : forall i k, i + S k < n -> fi i (S k) = (fitc n C (vol_factor n C) i k * (vol_factor n C k - 1))%Qc).
    { intros i k Hk. unfold fi. cbn [incr_of]. rewrite fitc_step by auto. ring. }
    assert (Fc : forall i k, i + k < n -> (0 < fitc n C (vol_factor n C) i k)%Qc) by (intros; apply fitc_pos; auto).
    assert (Kp0 : keep 0 = true) by reflexivity.
    assert (Fpos : forall i j, i + j < n -> keep j = true -> (0 <= fi i j)%Qc).
    { intros i j L1 L2. destruct j as [|j].
      - apply Qclt_le_weak. apply Fc. auto.
      - rewrite St by auto. apply qc_mul_nonneg; [apply Qclt_le_weak, Fc; lia|]. unfold keep, alive in L2.
        destruct (qcleb_spec 1 (vol_factor n C j)) as [A|A]; [|discriminate]. qlra. }
    assert (Fneg : forall i j, i + j < n -> keep j = false -> (fi i j < 0)%Qc).
    { intros i j L1 L2. destruct j as [|j]; [discriminate|]. rewrite St by auto. unfold keep, alive in L2.
      destruct (qcleb_spec 1 (vol_factor n C j)) as [A|A]; [discriminate|]. assert (A' := Fc i j ltac:(lia)).
      assert (Q : (0 < fitc n C (vol_factor n C) i j * (1 - vol_factor n C j))%Qc).
      { apply qc_mul_pos; auto. apply Qcnot_le_lt in A. qlra. }
      assert (Q2 : (fitc n C (vol_factor n C) i j * (vol_factor n C j - 1) = - (fitc n C (vol_factor n C) i j * (1 - vol_factor n C j)))%Qc) by ring.
      rewrite Q2. qlra. }
    assert (Mf : forall i j, i + j < n -> M i j = fi i j).
    { rewrite Efi in Rm. apply (regular_inj n Hn (rmat (m_idx m) (m_cols m) n fi)); auto. apply rmat_regular; auto. }
    set (K := Ka n fi keep rt resid).
    assert (Kt : forall s i j, s < sims -> i + j < n -> K s i j = T s i j).
    { intros s i j Hs L1. unfold K, Ka, T, resampled_at. apply sumf_ext. intros k Hk. destruct (keep k) eqn:Kk; auto. unfold X.
      rewrite He by lia. cbn [fq]. rewrite Ro by (apply Fpos; auto; lia). cbn [fq]. rewrite Mf by lia. ring. }
    assert (Rf : forall k, k < sims * (n * n) -> exists q, resid k = Fin q).
    { intros k Hk. set (q := k / (n * n)). set (r := k mod (n * n)). set (i := r / n). set (j := r mod n).
      assert (N0 : n * n <> 0) by nia. assert (n <> 0) by lia.
      assert (k = n * n * q + r) by (apply Nat.div_mod; auto).
      assert (r < n * n) by (apply Nat.mod_upper_bound; auto).
      assert (r = n * i + j) by (apply Nat.div_mod; auto).
      assert (j < n) by (apply Nat.mod_upper_bound; auto).
      assert (q < sims) by (apply Nat.div_lt_upper_bound; auto; lia).
      assert (i < n) by (apply Nat.div_lt_upper_bound; auto; lia).
      exists (E q i j). rewrite <- He by auto. f_equal. lia. }
    exists fi. split; [exact Em|]. split; [exact El|]. split; [exact Er|]. split; [exact Efi|]. split; [exact Fpos|]. split; [exact Fneg|].
    split; [exact Kt|]. split; [exact Rf|]. unfold resid, gam. rewrite Ed, <- Eb. reflexivity.
  Qed.

  Lemma c98_any : o_reserves b = flat_map (fun i => map (fun s =>
      mkR s (nth i (m_idx m) 0%Z) (if has_latest i then Fin (T s i (n - 1 - i)%nat) else ultimate s i) (ultimate s i)
          (Fin (if has_latest i then u s i - T s i (n - 1 - i)%nat else 0)%Qc))
    (seq 0 sims)) (seq 0 n).
  Proof.
    destruct any_setup as (fi & Em & El & Er & Efi & Fpos & Fneg & Kt & Rf & Ore).
    assert (R' := R). apply regular_rmat in R' as (_ & So & Sd & Lo & Ld).
    set (resid := fst (rng (o_dist b))) in *. set (gam := snd (rng (o_dist b))) in *. set (K := Ka n fi keep rt resid) in *.
    assert (Kp0 : keep 0 = true) by reflexivity.
    destruct (find_last_kept keep n ltac:(lia) Kp0) as (Lk & HL & KL & GL).
    assert (Ar := any_records (m_idx m) (m_cols m) n C fi keep So Sd Lo Ld ltac:(lia) Kp0 Fpos Fneg rt Rt sims resid Rf Lk HL KL GL c Cp gam V).
    rewrite Ore, El, Er. rewrite Em at 1. rewrite Ar.
    2:{ intros ps s i j a Hs Hi' Hj A Q. apply Hv; auto. lia. }
    apply flat_map_seq_ext. intros i Hi'. apply map_seq_ext. intros s Hs.
    assert (Eu : ult_a (m_cols m) n fi keep rt resid c V s i = if (i =? 0) && negb (keep (n - 1)) then None else Some (u s i)).
    { unfold ult_a. destruct ((i =? 0) && negb (keep (n - 1))); [reflexivity|]. apply (f_equal Some). unfold u. apply total_ext. intros j Hj. unfold losses.
      apply path_ext; auto; try lia.
      - intros k Hk. apply factor_ext; auto. intros q x y Hq Hxy. apply Kt; lia.
      - intros x y Hxy. apply Kt; lia. }
    rewrite Eu. unfold la_a, ultimate, has_latest. rewrite <- Kt by lia. fold K.
    destruct (i =? 0); cbn [andb negb].
    - destruct (keep (n - 1)); reflexivity.
    - destruct (keep (n - 1 - i)); reflexivity.
  Qed.
End Call.

Lemma c98_lost :
  forall (gm : list val -> val) (rt : val -> val) (root : Qc -> Qc) (m : lmat) (n : nat) (C M : nat -> nat -> Qc)
         (cl rl : list nat) (ind : list (list val)) (w : nat -> nat -> bool) (sims : nat) (par : bool)
         (rng : list val -> (nat -> val) * (list (val * val) -> nat -> val)) (b : boot_result) (c : Qc)
         (E : nat -> nat -> nat -> Qc) (V : nat -> nat -> nat -> Qc -> Qc),
  regular m n C -> positive n C -> 2 < n -> tail_fits (m_cols m) ->
  (forall i j, i + j < n - 1 -> cell ind i j = Fin (if w i j then 1 else 0)%Qc) ->
  (forall j, j < n - 1 -> w (n - 2 - j) j = true) ->
  clvi m = Ok cl -> rlvi m = Ok rl -> root_like rt -> (forall q, (0 <= q)%Qc -> rt (Fin q) = Fin (root q)) ->
  boot_cl gm rt (mkTri m "origin" "dev" "value") cl rl ind sims par rng = Ok b ->
  o_scale b = Fin c -> (0 < c)%Qc -> regular (o_fit_incr b) n M ->
  (forall s i j, s < sims -> i < n -> j < n -> fst (rng (o_dist b)) (s * (n * n) + i * n + j) = Fin (E s i j)) ->
  (forall ps s i j a, s < sims -> i < n -> j < n -> (0 <= a)%Qc ->
     nth (s * (n * n) + i * n + j) ps (NaN, NaN) = (Fin a, Fin c) ->
     snd (rng (o_dist b)) ps (s * (n * n) + i * n + j) = Fin (V s i j a)) ->
  forall r i p, In r (o_reserves b) -> v_o r = nth i (m_idx m) 0%Z -> i + S p = n - 1 -> (vol_factor n C p < 1)%Qc ->
    v_reserve r = Fin 0%Qc /\ v_latest r = v_ultimate r.
Proof.
  intros gm rt root m n C M cl rl ind w sims par rng b c E V R P Hn Ev Hi Hl Cl Rl Rt Ro B Sc Cp Rm He Hv r i p Hr Eo Ei Fp.
  rewrite (c98_any gm rt root m n C M cl rl ind w sims par rng b c E V R P Hn Ev Hi Hl Cl Rl Rt Ro B Sc Cp Rm He Hv) in Hr.
  assert (R' := R). apply regular_rmat in R' as (_ & So & _ & Lo & _).
  apply in_flat_map in Hr as (k & Hk & Hr). apply in_map_iff in Hr as (s' & <- & Hs'). apply in_seq in Hk, Hs'.
  cbn [v_o v_latest v_ultimate v_reserve] in *.
  assert (k = i).
  { destruct (Nat.lt_total k i) as [Q|[Q|Q]]; auto.
    - assert (Z1 := zsorted_nth (m_idx m) k i 0%Z So). lia.
    - assert (Z1 := zsorted_nth (m_idx m) i k 0%Z So). lia. }
  subst k.
  assert (K : alive n C (n - 1 - i) = false).
  { replace (n - 1 - i) with (S p) by lia. cbn [alive]. destruct (qcleb_spec 1 (vol_factor n C p)) as [A|A]; auto. exfalso. apply (Qclt_not_le _ _ Fp A). }
  rewrite K, andb_false_r. auto.
Qed.
