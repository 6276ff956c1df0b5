(** Closed form of every simulated record under any development labels (C74). *)

From Coq Require Import String QArith Qcanon ZArith List Bool Lia Permutation Sorting.Sorted.
From Verif Require Import Val Frame Triangle A2A Base Mack Boot ListLib QcLib Spec Spec2 SpecSim SpecSimL TblFacts ConvFacts FillFacts
  TriClaims4 RegFacts AvgFacts MackFacts BuildFacts BaseClaims BootFit BootLib BootSim BootClaims BootNoise BootClaims2 BootForm.
Import ListNotations.
Open Scope list_scope.
Open Scope nat_scope.

Section Form.
  Variables (os ds : list Z) (n : nat) (C : nat -> nat -> Qc).
  Hypothesis So : zsorted os.
  Hypothesis Sd : zsorted ds.
  Hypothesis Lo : length os = n.
  Hypothesis Ld : length ds = n.
  Hypothesis Hn : 0 < n.
  Hypothesis P : positive n C.
  Hypothesis F1 : forall j, j < n - 1 -> (1 <= vol_factor n C j)%Qc.
  Let fi := incr_of (fitc n C (vol_factor n C)).
  Variable rt : val -> val.
  Hypothesis Rt : root_like rt.
  Variable sims : nat.
  Variable resid : nat -> val.
  Hypothesis Rf : forall k, k < sims * (n * n) -> exists q, resid k = Fin q.
  Let T s := K n fi rt resid s.
  Hypothesis Nz : forall s j, s < sims -> j < n - 1 -> sumf 0 (n - 1 - j) (fun i => T s i j) <> 0%Qc.

  Definition linc (c : nat -> Qc) (j : nat) : Qc :=
    ((if (nth j ds 0 =? 1)%Z then c j else 0) + match j with O => 0 | S k => c j - c k end)%Qc.
  Lemma lincrs_eq (c : nat -> Qc) : incr_from NaN (combine (map (fun j => nth j ds 0%Z) (seq 0 n)) (map (fun j => Fin (c j)) (seq 0 n)))
    = map (fun j => Fin (linc c j)) (seq 0 n).
  Proof.
    assert (G : forall k b, 0 < b -> b + k <= n ->
      incr_from (Fin (c (b - 1))) (combine (map (fun j => nth j ds 0%Z) (seq b k)) (map (fun j => Fin (c j)) (seq b k)))
      = map (fun j => Fin (linc c j)) (seq b k)).
    { induction k as [|k IH]; intros b B L; auto. cbn [seq map combine incr_from].
      assert (Q := IH (S b) ltac:(lia) ltac:(lia)). replace (S b - 1) with b in Q by lia. rewrite Q. f_equal.
      destruct b as [|b]; [lia|]. replace (S b - 1) with b by lia. unfold linc.
      case (nth (S b) ds 0 =? 1)%Z; cbn; f_equal; ring. }
    assert (Es : seq 0 n = 0 :: seq 1 (n - 1)) by (apply seq_first; auto).
    rewrite Es. cbn [map combine incr_from]. f_equal; [|apply (G (n - 1) 1); lia].
    unfold linc. case (nth 0 ds 0 =? 1)%Z; cbn; f_equal; ring.
  Qed.

  Let D s i := developed n (T s) i.
  Lemma lfg_rows s i : s < sims -> i < n -> snd (FG os ds n fi rt resid s i)
    = map (fun j => mkS s (nth i os 0%Z) (nth j ds 0%Z) (negb (i + j <? n)) (Fin (linc (D s i) j)) (Fin (D s i j))) (seq 0 n).
  Proof.
    intros Hs Hi. unfold FG. cbn [snd].
    assert (Ef : fcums os ds n fi rt resid s i = map (fun j => Fin (D s i j)) (seq 0 n)).
    { apply (ffcums_eq os ds n C) with (sims := sims); auto. }
    rewrite Ef. unfold set_cum_inc. rewrite map_map.
    change (map (fun x => b_d (row_of os ds n fi rt resid s i x)) (seq 0 n)) with (map (fun j => nth j ds 0%Z) (seq 0 n)).
    rewrite (lincrs_eq (D s i)).
    assert (G : forall l, map (fun p => let r := fst p in mkS (b_sim r) (b_o r) (b_d r) (b_fc r) (snd (snd p)) (fst (snd p)))
       (combine (map (row_of os ds n fi rt resid s i) l)
         (combine (map (fun j => Fin (D s i j)) l) (map (fun j => Fin (linc (D s i) j)) l)))
       = map (fun j => mkS s (nth i os 0%Z) (nth j ds 0%Z) (negb (i + j <? n)) (Fin (linc (D s i) j)) (Fin (D s i j))) l).
    { induction l as [|j l IH]; auto. cbn [map combine]. apply (f_equal2 cons); [|exact IH]. auto. }
    apply G.
  Qed.

  Variable c : Qc.
  Hypothesis Cp : (0 < c)%Qc.
  Variable gam : list (val * val) -> nat -> val.
  Variable V : nat -> nat -> nat -> Qc -> Qc.
  Hypothesis Gm : forall ps s i j a, s < sims -> i < n -> j < n -> (0 <= a)%Qc ->
    nth (s * (n * n) + i * n + j) ps (NaN, NaN) = (Fin a, Fin c) -> gam ps (s * (n * n) + i * n + j) = Fin (V s i j a).

  Definition lfin_inc (s i j : nat) : Qc := let x := booked_incr ds n (T s) i j in
    if i + j <? n then x else (sign_ x * V s i j (abs_ x / c))%Qc.

  Lemma lfincs_eq s i : s < sims -> i < n ->
    fincs (gd os ds n fi rt sims resid (Fin c) gam) ((s * n + i) * n) (snd (FG os ds n fi rt resid s i))
    = map (fun j => Fin (lfin_inc s i j)) (seq 0 n).
  Proof.
    intros Hs Hi. unfold fincs.
    assert (Lg : length (snd (FG os ds n fi rt resid s i)) = n) by (rewrite lfg_rows, map_length, seq_length by auto; auto).
    rewrite Lg.
    assert (Z0 : c <> 0%Qc) by (apply qc_pos_neq; auto).
    assert (Gd : forall j, j < n -> gd os ds n fi rt sims resid (Fin c) gam ((s * n + i) * n + j)
       = Fin (V s i j (abs_ (linc (D s i) j) / c)%Qc)).
    { intros j Hj. unfold gd.
      assert (W := gparams_nth os ds n fi Lo Ld Hn rt sims resid (Fin c) s i j Hs Hi Hj).
      rewrite lfg_rows in W by auto. rewrite (nth_map_seq (fun j => mkS s _ _ _ _ _)) in W by auto. cbn [b_inc Nat.add] in W.
      rewrite vdiv_fin, vabs_fin, (abs_div c Cp) in W by auto.
      assert (Ep : (s * n + i) * n + j = s * (n * n) + i * n + j) by nia. rewrite Ep in W |- *.
      apply Gm; auto. unfold Qcdiv. apply qc_mul_nonneg; [apply abs_nn|apply Qclt_le_weak, qc_inv_pos; auto]. }
    rewrite lfg_rows by auto. rewrite <- (Nat.add_0_r ((s * n + i) * n)).
    assert (G : forall k b, b + k <= n ->
      map (fun p => final_incr (gd os ds n fi rt sims resid (Fin c) gam) (fst p) (snd p))
       (combine (seq ((s * n + i) * n + b) k)
         (map (fun j => mkS s (nth i os 0%Z) (nth j ds 0%Z) (negb (i + j <? n)) (Fin (linc (D s i) j)) (Fin (D s i j))) (seq b k)))
      = map (fun j => Fin (lfin_inc s i j)) (seq b k)).
    { induction k as [|k IH]; intros b L; auto. cbn [seq map combine]. rewrite <- Nat.add_succ_r, IH by lia. f_equal.
      unfold final_incr, lfin_inc. cbn [fst snd b_fc b_inc]. change (booked_incr ds n (T s) i b) with (linc (D s i) b).
      destruct (Nat.ltb_spec (i + b) n) as [A|A]; cbn [negb]; auto.
      rewrite Gd by lia. cbv zeta.
      unfold vltb, sign_. destruct (qcltb 0 _); cbn [vmul]; f_equal; ring. }
    apply G. lia.
  Qed.

  Definition ultL (s i : nat) : Qc := booked_ultimate ds n (T s) c (V s i) i.
  Definition formL_rec (s i : nat) : rrec :=
    mkR s (nth i os 0%Z) (Fin (if i =? 0 then ultL s i else T s i (n - 1 - i))) (Fin (ultL s i))
        (Fin (if i =? 0 then 0 else ultL s i - T s i (n - 1 - i)%nat)%Qc).
  Lemma formL_rr s i : s < sims -> i < n -> RR os ds n fi rt sims resid (Fin c) gam s i = formL_rec s i.
  Proof.
    intros Hs Hi. unfold RR. rewrite lfincs_eq by auto. rewrite sum_last by auto.
    change (sumf 0 n (fun j => lfin_inc s i j)) with (ultL s i).
    unfold rec_of, la, formL_rec. destruct (Nat.eqb_spec i 0) as [->|Di]; cbn [isnan]; reflexivity.
  Qed.
  Lemma formL_simulate :
    simulate rt (rmat os ds n C) (map (fun j => n - 1 - j) (seq 0 n)) (map (fun i => n - 1 - i) (seq 0 n))
      (rmat os ds n fi) (Fin c) sims resid gam
    = flat_map (fun i => map (fun s => formL_rec s i) (seq 0 sims)) (seq 0 n).
  Proof.
    rewrite simulate_eq; auto.
    - apply flat_map_seq_ext. intros i Hi. apply map_seq_ext. intros s Hs. apply formL_rr; lia.
    - apply (fi_nn os ds); auto.
  Qed.
End Form.
