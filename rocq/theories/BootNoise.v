(** The bootstrap without noise: residuals 0 and gamma variates at their means. *)

From Coq Require Import String QArith Qcanon ZArith List Bool Lia Permutation Sorting.Sorted.
From Verif Require Import Val Frame Triangle A2A Base Mack Boot ListLib QcLib Spec Spec2 TblFacts ConvFacts FillFacts
  TriClaims4 RegFacts AvgFacts MackFacts BaseClaims BootFit BootLib BootSim.
Import ListNotations.
Open Scope list_scope.
Open Scope nat_scope.

Lemma cum_mul_seq (x : nat -> Qc) k : forall b a,
  cum_from vmul (Fin a) (map (fun j => Fin (x j)) (seq b k)) = map (fun j => Fin (a * prodf b (S j - b) x)%Qc) (seq b k).
Proof.
  induction k as [|k IH]; intros b a; auto. cbn [seq map cum_from isnan vmul]. rewrite IH. f_equal.
  - f_equal. replace (S b - b) with 1 by lia. rewrite prodf_Sl, prodf_0. ring.
  - apply map_seq_ext. intros j Hj. f_equal. replace (S j - b) with (S (S j - S b)) by lia. rewrite prodf_Sl. ring.
Qed.
Lemma cum_from_app op l2 : forall l1 a, exists b, cum_from op a (l1 ++ l2) = cum_from op a l1 ++ cum_from op b l2.
Proof.
  induction l1 as [|v l1 IH]; intro a; [exists a; auto|]. cbn [app cum_from]. destruct (isnan v).
  - destruct (IH a) as (b & E). exists b. rewrite E. auto.
  - destruct (IH (op a v)) as (b & E). exists b. rewrite E. auto.
Qed.
Lemma sum_last x (n : nat) : 0 < n -> last (cumsum (map (fun j => Fin (x j)) (seq 0 n))) NaN = Fin (sumf 0 n x).
Proof.
  intro Hn. assert (E : map (fun j => Fin (x j)) (seq 0 n) = rcol n n x).
  { apply map_seq_ext. intros j Hj. rewrite ltb_if by lia. auto. }
  rewrite E, cumsum_rcol. unfold rcol. rewrite last_map_seq by auto. rewrite ltb_if by lia. f_equal. f_equal. lia.
Qed.

Section Noise.
  Variables (os ds : list Z) (n : nat) (C : nat -> nat -> Qc).
  Hypothesis So : zsorted os.
  Hypothesis Sd : zsorted ds.
  Hypothesis Lo : length os = n.
  Hypothesis Ld : length ds = n.
  Hypothesis Hn : 0 < n.
  Hypothesis P : positive n C.
  Let f := vol_factor n C.
  Hypothesis F1 : forall j, j < n - 1 -> (1 <= f j)%Qc.
  Hypothesis D1 : nth 0 ds 0%Z = 1%Z.
  Let D := fitc n C f.
  Let fi := incr_of D.
  Variable rt : val -> val.
  Hypothesis Rt : root_like rt.
  Variable sims : nat.
  Variable resid : nat -> val.
  Hypothesis R0 : forall k, k < sims * (n * n) -> resid k = Fin 0%Qc.

  Lemma f_pos j : j < n - 1 -> (0 < f j)%Qc.
  Proof. intro Hj. apply vol_pos; auto. Qed.
  Lemma fi_nn i j : i + j < n -> (0 <= fi i j)%Qc.
  Proof.
    intro L. unfold fi. destruct j as [|j]; cbn [incr_of].
    - apply Qclt_le_weak, fitc_pos; auto using f_pos.
    - unfold D. rewrite fitc_step by (auto using f_pos).
      assert (A : (0 < fitc n C f i j)%Qc) by (apply fitc_pos; auto using f_pos; lia).
      assert (B := F1 j ltac:(lia)). replace (fitc n C f i j * f j - fitc n C f i j)%Qc with (fitc n C f i j * (f j - 1))%Qc by ring.
      apply qc_mul_nonneg; [apply Qclt_le_weak; auto|]. qlra.
  Qed.

  Lemma K_eq s i j : s < sims -> i < n -> j < n -> K n fi rt resid s i j = D i j.
  Proof.
    intros Hs Hi Hj. unfold K. rewrite <- (incr_row_gen D i j). apply sumf_ext. intros k Hk. unfold X, fi.
    rewrite R0; [|assert (i * n + k < n * n) by nia; nia]. cbn [fq]. ring.
  Qed.
  Lemma X_eq s i j : s < sims -> i < n -> j < n -> X n fi rt resid s i j = fi i j.
  Proof.
    intros Hs Hi Hj. unfold X. rewrite R0; [|assert (i * n + j < n * n) by nia; nia]. cbn [fq]. ring.
  Qed.
  Lemma L_eq s j : s < sims -> S j < n -> L n fi rt resid s j = Fin (f j).
  Proof.
    intros Hs Hj. unfold L. rewrite (proj2 (Nat.ltb_lt (S j) n)) by auto.
    assert (E1 : N1 n fi rt resid s (S j) = sumf 0 (n - 1 - j) (fun i => D i (S j))).
    { unfold N1. replace (n - S j) with (n - 1 - j) by lia. apply sumf_ext. intros i Hi. apply K_eq; lia. }
    assert (E2 : N2 n fi rt resid s j = sumf 0 (n - 1 - j) (fun i => D i j)).
    { unfold N2. apply sumf_ext. intros i Hi. apply K_eq; lia. }
    rewrite E1, E2.
    assert (Pz : (0 < sumf 0 (n - 1 - j) (fun i => D i j))%Qc).
    { apply sumf_pos; [lia|]. intros i Hi. apply fitc_pos; auto using f_pos. lia. }
    destruct (qceqb_spec (sumf 0 (n - 1 - j) (fun i => D i j)) 0) as [Q|Q]; [rewrite Q in Pz; discriminate|].
    cbn [negb andb]. f_equal. apply fit_factor; auto.
  Qed.
  Lemma L_end s : L n fi rt resid s (n - 1) = NaN.
  Proof. unfold L. destruct (Nat.ltb_spec (S (n - 1)) n); [lia|auto]. Qed.

  Lemma Ls_shift s i : s < sims -> i < n ->
    removelast (NaN :: Ls n fi rt resid s i)
    = NaN :: map (fun j => Fin (prodf (n - 1 - i) (j - (n - 1 - i)) f)) (seq (n - i) i).
  Proof.
    intros Hs Hi. unfold Ls, cumprod. rewrite seq_S, map_app. cbn [map].
    assert (E : map (L n fi rt resid s) (seq (n - 1 - i) i) = map (fun j => Fin (f j)) (seq (n - 1 - i) i)).
    { apply map_ext_in. intros j Hj. apply in_seq in Hj. apply L_eq; auto. lia. }
    rewrite E. replace (n - 1 - i + i) with (n - 1) by lia. rewrite L_end.
    destruct (cum_from_app vmul [NaN] (map (fun j => Fin (f j)) (seq (n - 1 - i) i)) (Fin 1%Qc)) as (b & Eb).
    rewrite Eb, cum_mul_seq. cbn [cum_from isnan].
    rewrite app_comm_cons, removelast_last. f_equal.
    replace (seq (n - i) i) with (map S (seq (n - 1 - i) i)) by (rewrite seq_shift; f_equal; lia).
    rewrite map_map. apply map_ext. intro j. f_equal. ring.
  Qed.

  (** The square completed by the fitted factors. *)
  Definition sqf (i j : nat) : Qc :=
    if i + j <? n then D i j else (C i (n - 1 - i)%nat * prodf (n - 1 - i) (j - (n - 1 - i)) f)%Qc.

  Lemma row_cum s i j : s < sims -> i < n -> i + j < n -> b_cum (row_of os ds n fi rt resid s i j) = Fin (D i j).
  Proof. intros Hs Hi L. cbn [row_of b_cum]. rewrite ltb_if by auto. f_equal. apply K_eq; auto; lia. Qed.

  Lemma fcums_eq s i : s < sims -> i < n -> fcums os ds n fi rt resid s i = map (fun j => Fin (sqf i j)) (seq 0 n).
  Proof.
    intros Hs Hi. unfold fcums. destruct (Nat.eqb_spec i 0) as [->|Di].
    - apply map_seq_ext. intros j Hj. rewrite row_cum by lia. unfold sqf. rewrite ltb_if by lia. auto.
    - replace (seq 0 n) with (seq 0 (n - 1 - i) ++ seq (n - 1 - i) (S i)) by (rewrite <- seq_app; f_equal; lia).
      rewrite map_app. f_equal.
      + apply map_ext_in. intros j Hj. apply in_seq in Hj. rewrite row_cum by lia. unfold sqf. rewrite ltb_if by lia. auto.
      + rewrite Ls_shift by auto. cbn [seq map combine]. f_equal.
        * unfold cum_final. cbn [fst snd]. rewrite row_cum by lia. rewrite vmul_nan_r. cbn [nan0 isnan vadd].
          unfold sqf. rewrite ltb_if by lia. f_equal. ring.
        * replace (S (n - 1 - i)) with (n - i) by lia.
          assert (G : forall l, (forall j, In j l -> n <= i + j) ->
            map (cum_final (la n fi rt resid s i)) (combine (map (row_of os ds n fi rt resid s i) l)
              (map (fun j => Fin (prodf (n - 1 - i) (j - (n - 1 - i)) f)) l)) = map (fun j => Fin (sqf i j)) l).
          { induction l as [|j l IH]; intro B; auto. cbn [map combine]. rewrite IH by (intros; apply B; right; auto). f_equal.
            assert (Bj := B j (or_introl eq_refl)). unfold cum_final. cbn [fst snd row_of b_cum]. rewrite nltb_if by auto.
            unfold la. destruct (Nat.eqb_spec i 0); [congruence|]. rewrite K_eq by lia. cbn [nan0 isnan vmul vadd].
            unfold sqf. rewrite nltb_if by auto. f_equal. unfold D. rewrite fitc_last. ring. }
          apply G. intros j Hj. apply in_seq in Hj. lia.
  Qed.

  Lemma ds_not1 j : 0 < j < n -> (nth j ds 0%Z =? 1)%Z = false.
  Proof.
    intro L. apply Z.eqb_neq. assert (W := zsorted_nth ds 0 j 0%Z Sd). rewrite D1 in W. lia.
  Qed.
  Lemma incrs_eq (c : nat -> Qc) : incr_from NaN (combine (map (fun j => nth j ds 0%Z) (seq 0 n)) (map (fun j => Fin (c j)) (seq 0 n)))
    = map (fun j => Fin (match j with O => c 0 | S k => (c j - c k)%Qc end)) (seq 0 n).
  Proof.
    assert (G : forall k b, 0 < b -> b + k <= n ->
      incr_from (Fin (c (b - 1))) (combine (map (fun j => nth j ds 0%Z) (seq b k)) (map (fun j => Fin (c j)) (seq b k)))
      = map (fun j => Fin (match j with O => c 0 | S k => (c j - c k)%Qc end)) (seq b k)).
    { induction k as [|k IH]; intros b B L; auto. cbn [seq map combine incr_from]. rewrite ds_not1 by lia.
      assert (Q := IH (S b) ltac:(lia) ltac:(lia)). replace (S b - 1) with b in Q by lia. rewrite Q. f_equal.
      destruct b as [|b]; [lia|]. replace (S b - 1) with b by lia. cbn. f_equal. ring. }
    assert (Es : seq 0 n = 0 :: seq 1 (n - 1)) by (clear -Hn; destruct n; [lia|]; simpl; rewrite Nat.sub_0_r; auto).
    rewrite Es. cbn [map combine incr_from]. rewrite D1. cbn. f_equal; [f_equal; ring|]. apply (G (n - 1) 1); lia.
  Qed.

  Definition blank := mkS 0 0 0 false NaN NaN.
  Lemma fg_rows s i : s < sims -> i < n -> snd (FG os ds n fi rt resid s i)
    = map (fun j => mkS s (nth i os 0%Z) (nth j ds 0%Z) (negb (i + j <? n)) (Fin (incr_of sqf i j)) (Fin (sqf i j))) (seq 0 n).
  Proof.
    intros Hs Hi. unfold FG. cbn [snd]. rewrite fcums_eq by auto. unfold set_cum_inc. rewrite map_map.
    change (map (fun x => b_d (row_of os ds n fi rt resid s i x)) (seq 0 n)) with (map (fun j => nth j ds 0%Z) (seq 0 n)).
    rewrite (incrs_eq (sqf i)).
    assert (G : forall l, map (fun p => let r := fst p in mkS (b_sim r) (b_o r) (b_d r) (b_fc r) (snd (snd p)) (fst (snd p)))
       (combine (map (row_of os ds n fi rt resid s i) l)
         (combine (map (fun j => Fin (sqf i j)) l) (map (fun j => Fin (match j with O => sqf i 0 | S k => (sqf i j - sqf i k)%Qc end)) l)))
       = map (fun j => mkS s (nth i os 0%Z) (nth j ds 0%Z) (negb (i + j <? n)) (Fin (incr_of sqf i j)) (Fin (sqf i j))) l).
    { induction l as [|j l IH]; auto. cbn [map combine]. apply (f_equal2 cons); [|exact IH]. destruct j; auto. }
    apply G.
  Qed.

  Variable c : Qc.
  Hypothesis Cp : (0 < c)%Qc.
  Variable gam : list (val * val) -> nat -> val.
  Hypothesis Gm : forall ps k, gam ps k = vmul (fst (nth k ps (NaN, NaN))) (snd (nth k ps (NaN, NaN))).

  Lemma abs_mul x : vmul (vmul (vabs (vdiv (Fin x) (Fin c))) (Fin c)) (if vltb (Fin 0%Qc) (Fin x) then Fin 1%Qc else Fin (- (1))%Qc) = Fin x.
  Proof.
    assert (Nz : c <> 0%Qc) by (apply qc_pos_neq; auto).
    rewrite vdiv_fin by auto. unfold vabs, vltb. destruct (qcltb_spec (x / c) 0) as [A|A]; destruct (qcltb_spec 0 x) as [B|B]; cbn [vneg vmul]; f_equal.
    - exfalso. assert (Q := qc_div_pos x c B Cp). apply (Qclt_not_le _ _ A). apply Qclt_le_weak; auto.
    - field. auto.
    - field. auto.
    - assert (x = 0)%Qc as ->.
      { apply Qcnot_lt_le in A, B. apply Qcle_antisym; auto. apply qc_le_div in A; auto. }
      field. auto.
  Qed.

  Lemma fincs_eq s i : s < sims -> i < n ->
    fincs (gd os ds n fi rt sims resid (Fin c) gam) ((s * n + i) * n) (snd (FG os ds n fi rt resid s i))
    = map (fun j => Fin (incr_of sqf i j)) (seq 0 n).
  Proof.
    intros Hs Hi. unfold fincs.
    assert (Lg : length (snd (FG os ds n fi rt resid s i)) = n) by (rewrite fg_rows, map_length, seq_length by auto; auto).
    rewrite Lg.
    assert (Gd : forall j, j < n -> gd os ds n fi rt sims resid (Fin c) gam ((s * n + i) * n + j)
       = vmul (vabs (vdiv (Fin (incr_of sqf i j)) (Fin c))) (Fin c)).
    { intros j Hj. unfold gd. rewrite Gm.
      rewrite (gparams_nth os ds n fi Lo Ld Hn) by auto. cbn [fst snd]. rewrite fg_rows by auto.
      rewrite nth_map_seq by auto. auto. }
    rewrite fg_rows by auto. rewrite <- (Nat.add_0_r ((s * n + i) * n)).
    assert (G : forall k b, b + k <= n ->
      map (fun p => final_incr (gd os ds n fi rt sims resid (Fin c) gam) (fst p) (snd p))
       (combine (seq ((s * n + i) * n + b) k)
         (map (fun j => mkS s (nth i os 0%Z) (nth j ds 0%Z) (negb (i + j <? n)) (Fin (incr_of sqf i j)) (Fin (sqf i j))) (seq b k)))
      = map (fun j => Fin (incr_of sqf i j)) (seq b k)).
    { induction k as [|k IH]; intros b L; auto. cbn [seq map combine]. rewrite <- Nat.add_succ_r, IH by lia. f_equal.
      unfold final_incr. cbn [fst snd b_fc b_inc]. destruct (i + b <? n); cbn [negb]; auto.
      rewrite Gd by lia. apply abs_mul. }
    apply G. lia.
  Qed.

  Definition ultc (i : nat) : Qc := (C i (n - 1 - i)%nat * prodf (n - 1 - i) i f)%Qc.

  Lemma noise_rec s i : s < sims -> i < n -> RR os ds n fi rt sims resid (Fin c) gam s i
    = mkR s (nth i os 0%Z) (Fin (C i (n - 1 - i))) (Fin (ultc i)) (Fin (ultc i - C i (n - 1 - i)%nat)%Qc).
  Proof.
    intros Hs Hi. unfold RR. rewrite fincs_eq by auto. rewrite sum_last by auto.
    assert (E : sumf 0 n (incr_of sqf i) = ultc i).
    { replace n with (S (n - 1)) at 1 by lia. etransitivity; [apply (incr_row_gen sqf i (n - 1))|]. unfold sqf, ultc.
      destruct (Nat.ltb_spec (i + (n - 1)) n) as [A|A].
      - replace i with 0 by lia. rewrite prodf_0. assert (Q := fitc_last n C f 0). rewrite Nat.sub_0_r in Q |- *.
        unfold D. rewrite Q. ring.
      - f_equal. f_equal. lia. }
    change (fun j => incr_of sqf i j) with (incr_of sqf i); rewrite E. unfold rec_of, la. destruct (Nat.eqb_spec i 0) as [->|Di].
    - cbn [isnan vsub vadd vneg nan0]. unfold ultc. rewrite prodf_0. f_equal; f_equal; ring.
    - rewrite K_eq by lia. unfold D. rewrite fitc_last. cbn. auto.
  Qed.

  Lemma noise_simulate :
    simulate rt (rmat os ds n C) (map (fun j => n - 1 - j) (seq 0 n)) (map (fun i => n - 1 - i) (seq 0 n))
      (rmat os ds n fi) (Fin c) sims resid gam
    = flat_map (fun i => map (fun s =>
        mkR s (nth i os 0%Z) (Fin (C i (n - 1 - i))) (Fin (ultc i)) (Fin (ultc i - C i (n - 1 - i)%nat)%Qc)) (seq 0 sims)) (seq 0 n).
  Proof.
    rewrite simulate_eq; auto using fi_nn.
    - apply flat_map_seq_ext. intros i Hi. apply map_seq_ext. intros s Hs. apply noise_rec; lia.
    - intros k Hk. rewrite R0 by auto. eauto.
  Qed.
  Lemma noise_ldfs :
    bs_ldfs (rmat os ds n C) (map (fun j => n - 1 - j) (seq 0 n)) sims (samples rt (rmat os ds n C) (rmat os ds n fi) sims resid)
    = flat_map (fun s => map (fun j => (s, nth j ds 0%Z, Fin (f j))) (seq 0 (n - 1))) (seq 0 sims).
  Proof.
    rewrite ldfs_eq; auto using fi_nn.
    - apply flat_map_seq_ext. intros s Hs. rewrite <- flat_map_single. apply flat_map_seq_ext. intros j Hj.
      assert (E := L_eq s j ltac:(lia) ltac:(lia)). unfold L in E. rewrite (proj2 (Nat.ltb_lt (S j) n)) in E by lia.
      unfold lrow. destruct (qceqb _ _); cbn [negb andb] in E; [discriminate|]. rewrite E. auto.
    - intros k Hk. rewrite R0 by auto. eauto.
  Qed.
End Noise.
