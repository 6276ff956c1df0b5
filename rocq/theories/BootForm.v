(** Closed form of every simulated record on run-off triangles with factors of at least
    1 (C74). *)

From Coq Require Import String QArith Qcanon ZArith List Bool Lia Permutation Sorting.Sorted.
From Verif Require Import Val Frame Triangle A2A Base Mack Boot ListLib QcLib Spec Spec2 SpecSim TblFacts ConvFacts FillFacts
  TriClaims4 RegFacts AvgFacts MackFacts BuildFacts BaseClaims BootFit BootLib BootSim BootClaims BootNoise BootClaims2.
Import ListNotations.
Open Scope list_scope.
Open Scope nat_scope.

Lemma sumf_cat a b k f : a <= b -> sumf a (b - a + k) f = (sumf a (b - a) f + sumf b k f)%Qc.
Proof.
  intro L. replace b with (a + (b - a)) at 3 by lia. generalize (b - a) as d. clear. intro d. revert a.
  induction d as [|d IH]; intro a; cbn [Nat.add].
  - rewrite sumf_0, Nat.add_0_r. ring.
  - rewrite !sumf_Sl, IH. replace (S a + d) with (a + S d) by lia. ring.
Qed.

Lemma seq_first k : 0 < k -> seq 0 k = 0 :: seq 1 (k - 1).
Proof. destruct k; [lia|]. intros _. simpl. rewrite Nat.sub_0_r. auto. Qed.

Section Form.
  Variables (os ds : list Z) (n : nat) (C : nat -> nat -> Qc).
  Hypothesis So : zsorted os.
  Hypothesis Sd : zsorted ds.
  Hypothesis Lo : length os = n.
  Hypothesis Ld : length ds = n.
  Hypothesis Hn : 0 < n.
  Hypothesis P : positive n C.
  Hypothesis F1 : forall j, j < n - 1 -> (1 <= vol_factor n C j)%Qc.
  Hypothesis D1 : (1 <= nth 0 ds 0)%Z.
  Let fi := incr_of (fitc n C (vol_factor n C)).
  Variable rt : val -> val.
  Hypothesis Rt : root_like rt.
  Variable sims : nat.
  Variable resid : nat -> val.
  Hypothesis Rf : forall k, k < sims * (n * n) -> exists q, resid k = Fin q.
  Let T s := K n fi rt resid s.
  Hypothesis Nz : forall s j, s < sims -> j < n - 1 -> sumf 0 (n - 1 - j) (fun i => T s i j) <> 0%Qc.

  Let e0 : Qc := if (nth 0 ds 0 =? 1)%Z then 1%Qc else 0%Qc.

  Lemma fL_eq s j : s < sims -> S j < n -> L n fi rt resid s j = Fin (vol_factor n (T s) j).
  Proof.
    intros Hs Hj. unfold L. rewrite (proj2 (Nat.ltb_lt (S j) n)) by auto.
    assert (W := Nz s j Hs ltac:(lia)).
    change (N2 n fi rt resid s j) with (sumf 0 (n - 1 - j) (fun i => T s i j)).
    destruct (qceqb_spec (sumf 0 (n - 1 - j) (fun i => T s i j)) 0) as [Q|Q]; [contradiction|].
    cbn [negb andb]. f_equal. unfold N1, vol_factor. replace (n - S j) with (n - 1 - j) by lia. auto.
  Qed.
  Lemma fL_end s : L n fi rt resid s (n - 1) = NaN.
  Proof. unfold L. destruct (Nat.ltb_spec (S (n - 1)) n); [lia|auto]. Qed.

  Lemma fLs_shift s i : s < sims -> i < n ->
    removelast (NaN :: Ls n fi rt resid s i)
    = NaN :: map (fun j => Fin (prodf (n - 1 - i) (j - (n - 1 - i)) (vol_factor n (T s)))) (seq (n - i) i).
  Proof.
    intros Hs Hi. unfold Ls, cumprod. rewrite seq_S, map_app. cbn [map].
    assert (E : map (L n fi rt resid s) (seq (n - 1 - i) i) = map (fun j => Fin (vol_factor n (T s) j)) (seq (n - 1 - i) i)).
    { apply map_ext_in. intros j Hj. apply in_seq in Hj. apply fL_eq; auto. lia. }
    rewrite E. replace (n - 1 - i + i) with (n - 1) by lia. rewrite fL_end.
    destruct (cum_from_app vmul [NaN] (map (fun j => Fin (vol_factor n (T s) j)) (seq (n - 1 - i) i)) (Fin 1%Qc)) as (b & Eb).
    rewrite Eb, cum_mul_seq. cbn [cum_from isnan].
    rewrite app_comm_cons, removelast_last. f_equal.
    replace (seq (n - i) i) with (map S (seq (n - 1 - i) i)) by (rewrite seq_shift; f_equal; lia).
    rewrite map_map. apply map_ext. intro j. f_equal. ring.
  Qed.

  Lemma frow_cum s i j : i + j < n -> b_cum (row_of os ds n fi rt resid s i j) = Fin (T s i j).
  Proof. intros L. cbn [row_of b_cum]. rewrite ltb_if by auto. reflexivity. Qed.

  Lemma ffcums_eq s i : s < sims -> i < n -> fcums os ds n fi rt resid s i = map (fun j => Fin (developed n (T s) i j)) (seq 0 n).
  Proof.
    intros Hs Hi. unfold fcums. destruct (Nat.eqb_spec i 0) as [->|Di].
    - apply map_seq_ext. intros j Hj. rewrite frow_cum by lia. unfold developed. rewrite ltb_if by lia. auto.
    - replace (seq 0 n) with (seq 0 (n - 1 - i) ++ seq (n - 1 - i) (S i)) by (rewrite <- seq_app; f_equal; lia).
      rewrite map_app. f_equal.
      + apply map_ext_in. intros j Hj. apply in_seq in Hj. rewrite frow_cum by lia. unfold developed. rewrite ltb_if by lia. auto.
      + rewrite fLs_shift by auto. cbn [seq map combine]. f_equal.
        * unfold cum_final. cbn [fst snd]. rewrite frow_cum by lia. rewrite vmul_nan_r. cbn [nan0 isnan vadd].
          unfold developed. rewrite ltb_if by lia. f_equal. ring.
        * replace (S (n - 1 - i)) with (n - i) by lia.
          assert (G : forall l, (forall j, In j l -> n <= i + j) ->
            map (cum_final (la n fi rt resid s i)) (combine (map (row_of os ds n fi rt resid s i) l)
              (map (fun j => Fin (prodf (n - 1 - i) (j - (n - 1 - i)) (vol_factor n (T s)))) l)) = map (fun j => Fin (developed n (T s) i j)) l).
          { induction l as [|j l IH]; intro B; auto. cbn [map combine]. rewrite IH by (intros; apply B; right; auto). f_equal.
            assert (Bj := B j (or_introl eq_refl)). unfold cum_final. cbn [fst snd row_of b_cum]. rewrite nltb_if by auto.
            unfold la. destruct (Nat.eqb_spec i 0); [congruence|]. cbn [nan0 isnan vmul vadd].
            unfold developed. rewrite nltb_if by auto. f_equal. unfold T. ring. }
          apply G. intros j Hj. apply in_seq in Hj. lia.
  Qed.

  Lemma fds_not1 j : 0 < j < n -> (nth j ds 0%Z =? 1)%Z = false.
  Proof. intro L. apply Z.eqb_neq. assert (W := zsorted_nth ds 0 j 0%Z Sd). lia. Qed.
  (** Increments as the code computes them: the first one counts only under label 1. *)
  Definition finc (c : nat -> Qc) (j : nat) : Qc := match j with O => (e0 * c 0%nat)%Qc | S k => (c j - c k)%Qc end.
  Lemma fincrs_eq (c : nat -> Qc) : incr_from NaN (combine (map (fun j => nth j ds 0%Z) (seq 0 n)) (map (fun j => Fin (c j)) (seq 0 n)))
    = map (fun j => Fin (finc c j)) (seq 0 n).
  Proof.
    assert (G : forall k b, 0 < b -> b + k <= n ->
      incr_from (Fin (c (b - 1))) (combine (map (fun j => nth j ds 0%Z) (seq b k)) (map (fun j => Fin (c j)) (seq b k)))
      = map (fun j => Fin (finc c j)) (seq b k)).
    { induction k as [|k IH]; intros b B L; auto. cbn [seq map combine incr_from]. rewrite fds_not1 by lia.
      assert (Q := IH (S b) ltac:(lia) ltac:(lia)). replace (S b - 1) with b in Q by lia. rewrite Q. f_equal.
      destruct b as [|b]; [lia|]. replace (S b - 1) with b by lia. cbn. f_equal. ring. }
    assert (Es : seq 0 n = 0 :: seq 1 (n - 1)) by (apply seq_first; auto).
    rewrite Es. cbn [map combine incr_from]. f_equal; [|apply (G (n - 1) 1); lia].
    unfold finc, e0. case (nth 0 ds 0 =? 1)%Z; cbn; f_equal; ring.
  Qed.

  Lemma ffg_rows s i : s < sims -> i < n -> snd (FG os ds n fi rt resid s i)
    = map (fun j => mkS s (nth i os 0%Z) (nth j ds 0%Z) (negb (i + j <? n)) (Fin (finc (developed n (T s) i) j)) (Fin (developed n (T s) i j))) (seq 0 n).
  Proof.
    intros Hs Hi. unfold FG. cbn [snd]. rewrite ffcums_eq by auto. unfold set_cum_inc. rewrite map_map.
    change (map (fun x => b_d (row_of os ds n fi rt resid s i x)) (seq 0 n)) with (map (fun j => nth j ds 0%Z) (seq 0 n)).
    rewrite (fincrs_eq (developed n (T s) i)).
    assert (G : forall l, map (fun p => let r := fst p in mkS (b_sim r) (b_o r) (b_d r) (b_fc r) (snd (snd p)) (fst (snd p)))
       (combine (map (row_of os ds n fi rt resid s i) l)
         (combine (map (fun j => Fin (developed n (T s) i j)) l) (map (fun j => Fin (finc (developed n (T s) i) j)) l)))
       = map (fun j => mkS s (nth i os 0%Z) (nth j ds 0%Z) (negb (i + j <? n)) (Fin (finc (developed n (T s) i) j)) (Fin (developed n (T s) i j))) l).
    { induction l as [|j l IH]; auto. cbn [map combine]. apply (f_equal2 cons); [|exact IH]. auto. }
    apply G.
  Qed.

  Variable c : Qc.
  Hypothesis Cp : (0 < c)%Qc.
  Variable gam : list (val * val) -> nat -> val.
  Variable V : nat -> nat -> nat -> Qc -> Qc.
  Hypothesis Gm : forall ps s i j a, s < sims -> i < n -> j < n -> (0 <= a)%Qc ->
    nth (s * (n * n) + i * n + j) ps (NaN, NaN) = (Fin a, Fin c) -> gam ps (s * (n * n) + i * n + j) = Fin (V s i j a).

  Lemma vabs_fin x : vabs (Fin x) = Fin (abs_ x).
  Proof. reflexivity. Qed.
  Lemma abs_div x : abs_ (x / c)%Qc = (abs_ x / c)%Qc.
  Proof.
    assert (Z0 : c <> 0%Qc) by (apply qc_pos_neq; auto).
    unfold abs_. destruct (qcltb_spec (x / c) 0) as [A|A]; destruct (qcltb_spec x 0) as [B|B]; auto.
    - field. auto.
    - exfalso. apply Qcnot_lt_le in B. assert (Q : (0 <= x / c)%Qc) by (unfold Qcdiv; apply qc_mul_nonneg; auto; apply Qclt_le_weak, qc_inv_pos; auto).
      apply (Qclt_not_le _ _ A). auto.
    - exfalso. apply A. replace (x / c)%Qc with (- ((- x) / c))%Qc by (field; auto).
      assert (Q : (0 < - x / c)%Qc) by (apply qc_div_pos; auto; qlra). qlra.
  Qed.
  Lemma abs_nn x : (0 <= abs_ x)%Qc.
  Proof. unfold abs_. destruct (qcltb_spec x 0) as [B|B]; [qlra|apply Qcnot_lt_le in B; auto]. Qed.

  (** Final increments of a row. *)
  Definition fin_inc (s i j : nat) : Qc :=
    if i + j <? n then finc (developed n (T s) i) j
    else (sign_ (forecast n (T s) i j) * V s i j (abs_ (forecast n (T s) i j) / c))%Qc.

  Lemma ffincs_eq s i : s < sims -> i < n ->
    fincs (gd os ds n fi rt sims resid (Fin c) gam) ((s * n + i) * n) (snd (FG os ds n fi rt resid s i))
    = map (fun j => Fin (fin_inc s i j)) (seq 0 n).
  Proof.
    intros Hs Hi. unfold fincs.
    assert (Lg : length (snd (FG os ds n fi rt resid s i)) = n) by (rewrite ffg_rows, map_length, seq_length by auto; auto).
    rewrite Lg.
    assert (Z0 : c <> 0%Qc) by (apply qc_pos_neq; auto).
    assert (Gd : forall j, j < n -> gd os ds n fi rt sims resid (Fin c) gam ((s * n + i) * n + j)
       = Fin (V s i j (abs_ (finc (developed n (T s) i) j) / c)%Qc)).
    { intros j Hj. unfold gd.
      assert (W := gparams_nth os ds n fi Lo Ld Hn rt sims resid (Fin c) s i j Hs Hi Hj).
      rewrite ffg_rows in W by auto. rewrite (nth_map_seq (fun j => mkS s _ _ _ _ _)) in W by auto. cbn [b_inc Nat.add] in W.
      rewrite vdiv_fin, vabs_fin, abs_div in W by auto.
      assert (Ep : (s * n + i) * n + j = s * (n * n) + i * n + j) by nia. rewrite Ep in W |- *.
      apply Gm; auto. unfold Qcdiv. apply qc_mul_nonneg; [apply abs_nn|apply Qclt_le_weak, qc_inv_pos; auto]. }
    rewrite ffg_rows by auto. rewrite <- (Nat.add_0_r ((s * n + i) * n)).
    assert (G : forall k b, b + k <= n ->
      map (fun p => final_incr (gd os ds n fi rt sims resid (Fin c) gam) (fst p) (snd p))
       (combine (seq ((s * n + i) * n + b) k)
         (map (fun j => mkS s (nth i os 0%Z) (nth j ds 0%Z) (negb (i + j <? n)) (Fin (finc (developed n (T s) i) j)) (Fin (developed n (T s) i j))) (seq b k)))
      = map (fun j => Fin (fin_inc s i j)) (seq b k)).
    { induction k as [|k IH]; intros b L; auto. cbn [seq map combine]. rewrite <- Nat.add_succ_r, IH by lia. f_equal.
      unfold final_incr, fin_inc. cbn [fst snd b_fc b_inc]. destruct (Nat.ltb_spec (i + b) n) as [A|A]; cbn [negb]; auto.
      rewrite Gd by lia. destruct b as [|b]; [lia|]. unfold forecast. cbn [incr_of finc].
      unfold vltb, sign_. destruct (qcltb 0 _); cbn [vmul]; f_equal; ring. }
    apply G. lia.
  Qed.

  Definition seen (s i : nat) : Qc := (T s i (n - 1 - i) - (1 - e0) * T s i 0%nat)%Qc.
  Definition fut (s i : nat) : Qc := future n (T s) c (V s i) i.

  Lemma fin_sum s i : i < n -> sumf 0 n (fin_inc s i) = (seen s i + fut s i)%Qc.
  Proof.
    intro Hi. replace n with (n - i - 0 + i) at 1 by lia. rewrite sumf_cat by lia. f_equal.
    - rewrite Nat.sub_0_r. rewrite (sumf_ext _ _ _ (finc (T s i))).
      + unfold seen. replace (n - i) with (S (n - 1 - i)) by lia. rewrite sumf_Sl. cbn [finc].
        assert (G : forall k, sumf 1 k (finc (T s i)) = (T s i k - T s i 0%nat)%Qc).
        { induction k as [|k IH]; [rewrite sumf_0; ring|]. rewrite sumf_Sr, IH. cbn [Nat.add finc]. ring. }
        rewrite G. ring.
      + intros j Hj. unfold fin_inc. rewrite ltb_if by lia. destruct j as [|j]; cbn [finc]; unfold developed; rewrite !ltb_if by lia; auto.
    - unfold fut, future. apply sumf_ext. intros j Hj. unfold fin_inc. apply nltb_if. lia.
  Qed.

  Definition form_rec (s i : nat) : rrec :=
    mkR s (nth i os 0%Z) (Fin (if i =? 0 then seen s i else T s i (n - 1 - i))) (Fin (seen s i + fut s i)%Qc)
        (Fin (if i =? 0 then 0 else seen s i + fut s i - T s i (n - 1 - i)%nat)%Qc).
  Lemma form_rr s i : s < sims -> i < n -> RR os ds n fi rt sims resid (Fin c) gam s i = form_rec s i.
  Proof.
    intros Hs Hi. unfold RR. rewrite ffincs_eq by auto. rewrite sum_last by auto.
    change (fun j => fin_inc s i j) with (fin_inc s i); rewrite fin_sum by auto.
    unfold rec_of, la, form_rec. destruct (Nat.eqb_spec i 0) as [->|Di].
    - cbn [isnan vsub vadd vneg nan0]. f_equal. f_equal. unfold fut, future. rewrite sumf_0. ring.
    - cbn [isnan]. reflexivity.
  Qed.
  Lemma form_simulate :
    simulate rt (rmat os ds n C) (map (fun j => n - 1 - j) (seq 0 n)) (map (fun i => n - 1 - i) (seq 0 n))
      (rmat os ds n fi) (Fin c) sims resid gam
    = flat_map (fun i => map (fun s => form_rec s i) (seq 0 sims)) (seq 0 n).
  Proof.
    rewrite simulate_eq; auto.
    - apply flat_map_seq_ext. intros i Hi. apply map_seq_ext. intros s Hs. apply form_rr; lia.
    - apply (fi_nn os ds); auto.
  Qed.
End Form.
