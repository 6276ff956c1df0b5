(** Closed form of the table of simulated records on run-off triangles (C75). *)

From Coq Require Import String QArith Qcanon ZArith List Bool Lia Permutation Sorting.Sorted.
From Verif Require Import Val Frame Triangle A2A Base Mack Boot Sims ListLib QcLib Spec Spec2 SpecSim TblFacts ConvFacts FillFacts
  TriClaims4 RegFacts AvgFacts MackFacts BuildFacts BaseClaims BootFit BootLib BootSim BootClaims BootNoise BootClaims2 BootForm
  SimClaims SimsFacts.
Import ListNotations.
Open Scope string_scope.
Open Scope list_scope.
Open Scope nat_scope.

Section Form.
  Variables (os ds : list Z) (n : nat) (C : nat -> nat -> Qc).
  Hypothesis So : zsorted os.
  Hypothesis Sd : zsorted ds.
  Hypothesis Lo : length os = n.
  Hypothesis Ld : length ds = n.
  Hypothesis Hn : 0 < n.
  Hypothesis P : positive n C.
  Hypothesis F1 : forall j, j < n - 1 -> (1 <= vol_factor n C j)%Qc.
  Hypothesis D1 : nth 0 ds 0%Z = 1%Z.
  Let fi := incr_of (fitc n C (vol_factor n C)).
  Variable rt : val -> val.
  Hypothesis Rt : root_like rt.
  Variable sims : nat.
  Variable resid : nat -> val.
  Hypothesis Rf : forall k, k < sims * (n * n) -> exists q, resid k = Fin q.
  Let T s := K n fi rt resid s.
  Hypothesis Nz : forall s j, s < sims -> j < n - 1 -> sumf 0 (n - 1 - j) (fun i => T s i j) <> 0%Qc.
  Variable c : Qc.
  Hypothesis Cp : (0 < c)%Qc.
  Variable gam : list (val * val) -> nat -> val.
  Variable V : nat -> nat -> nat -> Qc -> Qc.
  Hypothesis Gm : forall ps s i j a, s < sims -> i < n -> j < n -> (0 <= a)%Qc ->
    nth (s * (n * n) + i * n + j) ps (NaN, NaN) = (Fin a, Fin c) -> gam ps (s * (n * n) + i * n + j) = Fin (V s i j a).

  Definition form_d (T : nat -> nat -> nat -> Qc) (s i j : nat) : sdrec :=
    let x := forecast n (T s) i j in
    let u := paid n (T s) c (V s i) i j in
    let l := T s i (n - 1 - i) in
    let later := (0 <? i) && (n - 1 - i <=? j) in
    mkD s (nth i os 0%Z) (nth j ds 0%Z) (n <=? i + j) (Fin x) (Fin (developed n (T s) i j)) (Fin (abs_ x / c)%Qc)
        (if later then Fin l else NaN) (Fin u) (if later then Fin (u - l)%Qc else NaN).

  Lemma finc_incr s i j : finc ds (developed n (T s) i) j = forecast n (T s) i j.
  Proof. unfold finc, forecast. destruct j; cbn [incr_of]; auto. rewrite D1. cbn [Z.eqb Pos.eqb]. ring. Qed.
  Lemma fin_inc_sum s i j : i < n -> j < n -> sumf 0 (S j) (fin_inc ds n C rt resid c V s i) = paid n (T s) c (V s i) i j.
  Proof.
    intros Hi Hj. unfold paid. fold fi.
    assert (A : forall k, i + k < n -> sumf 0 (S k) (fin_inc ds n C rt resid c V s i) = T s i k).
    { induction k as [|k IH]; intro L.
      - rewrite sumf_Sl, sumf_0. unfold fin_inc. rewrite ltb_if by lia. fold fi. change (K n fi rt resid s) with (T s).
        rewrite finc_incr. unfold forecast. cbn [incr_of]. unfold developed. rewrite ltb_if by lia. ring.
      - rewrite sumf_Sr, IH by lia. cbn [Nat.add]. unfold fin_inc. rewrite ltb_if by lia. fold fi. change (K n fi rt resid s) with (T s).
        rewrite finc_incr. unfold forecast. cbn [incr_of]. unfold developed. rewrite !ltb_if by lia. ring. }
    destruct (Nat.ltb_spec (i + j) n) as [L|L]; [apply A; auto|].
    replace (S j) with (n - i - 0 + (j - (n - 1 - i))) by lia. rewrite sumf_cat by lia.
    rewrite Nat.sub_0_r. replace (n - i) with (S (n - 1 - i)) at 1 by lia. rewrite A by lia. f_equal.
    apply sumf_ext. intros k Hk. unfold fin_inc. rewrite nltb_if by lia. auto.
  Qed.

  Lemma last_dev_eq i : i < n -> last_dev (rmat os ds n C) (map (fun i => n - 1 - i) (seq 0 n)) (nth i os 0%Z) = nth (n - 1 - i) ds 0%Z.
  Proof.
    intro Hi. unfold last_dev. cbn [rmat m_idx m_cols]. rewrite zfind_nth by (auto using zsorted_nodup; lia).
    rewrite (nth_map_seq (fun i => n - 1 - i)) by auto. cbn [Nat.add]. auto.
  Qed.

  Lemma form_group s i : s < sims -> i < n ->
    sims_group (rmat os ds n C) (map (fun i => n - 1 - i) (seq 0 n)) (Fin c)
      (FG os ds n fi rt resid s i, cumsum (map (fun j => Fin (fin_inc ds n C rt resid c V s i j)) (seq 0 n)))
    = map (form_d T s i) (seq 0 n).
  Proof.
    intros Hs Hi. unfold sims_group. cbn [fst snd].
    assert (Rw := ffg_rows os ds n C Sd Lo Ld Hn ltac:(lia) rt sims resid Nz s i Hs Hi). fold fi in Rw.
    change (K n fi rt resid s) with (T s) in Rw. rewrite Rw. clear Rw.
    assert (Cu : cumsum (map (fun j => Fin (fin_inc ds n C rt resid c V s i j)) (seq 0 n))
       = map (fun j => Fin (paid n (T s) c (V s i) i j)) (seq 0 n)).
    { assert (E : map (fun j => Fin (fin_inc ds n C rt resid c V s i j)) (seq 0 n) = AvgFacts.rcol n n (fin_inc ds n C rt resid c V s i)).
      { apply map_seq_ext. intros j Hj. rewrite ltb_if by lia. auto. }
      rewrite E, cumsum_rcol. apply map_seq_ext. intros j Hj. rewrite ltb_if by lia. f_equal. apply fin_inc_sum; lia. }
    rewrite Cu. clear Cu.
    assert (G : forall l, (forall j, In j l -> j < n) -> forall l1 l2,
       l1 = map (fun j => mkS s (nth i os 0%Z) (nth j ds 0%Z) (negb (i + j <? n)) (Fin (finc ds (developed n (T s) i) j)) (Fin (developed n (T s) i j))) l ->
       l2 = map (fun j => Fin (paid n (T s) c (V s i) i j)) l ->
       map (fun p => let r := fst p in let u := snd p in
         let la := if (last_dev (rmat os ds n C) (map (fun i => n - 1 - i)%nat (seq 0 n)) (b_o r) <=? b_d r)%Z then fst (FG os ds n fi rt resid s i) else NaN in
         mkD (b_sim r) (b_o r) (b_d r) (b_fc r) (b_inc r) (b_cum r) (vabs (vdiv (b_inc r) (Fin c))) la u (vsub u la))
         (combine l1 l2) = map (form_d T s i) l).
    { induction l as [|j l IH]; intros Hl l1 l2 -> ->; auto. cbn [map combine]. apply (f_equal2 cons).
      2:{ apply IH; auto. intros; apply Hl; right; auto. }
      cbn [fst snd b_sim b_o b_d b_fc b_inc b_cum]. assert (Hj := Hl j (or_introl eq_refl)). rewrite last_dev_eq by auto.
      rewrite finc_incr. unfold form_d. cbv zeta.
      rewrite vdiv_fin by (apply qc_pos_neq; auto). rewrite (vabs_fin), abs_div by auto.
      assert (E1 : negb (i + j <? n) = (n <=? i + j)) by (rewrite Nat.ltb_antisym, negb_involutive; auto). rewrite E1.
      assert (E2 : (nth (n - 1 - i) ds 0 <=? nth j ds 0)%Z = (n - 1 - i <=? j)).
      { destruct (Nat.leb_spec (n - 1 - i) j) as [A|A].
        - apply Z.leb_le. destruct (Nat.eq_dec (n - 1 - i) j) as [->|D]; [lia|].
          assert (W := zsorted_nth ds (n - 1 - i) j 0%Z Sd). lia.
        - apply Z.leb_gt. apply zsorted_nth; auto. lia. }
      rewrite E2. unfold FG, la. cbn [fst]. destruct i as [|i'].
      - cbn [Nat.eqb Nat.ltb Nat.leb andb]. destruct (n - 1 - 0 <=? j); cbn [vsub vadd vneg]; auto.
      - change (0 <? S i') with true. cbn [Nat.eqb andb]. fold fi. change (K n fi rt resid s) with (T s).
        destruct (n - 1 - S i' <=? j); auto. }
    apply G; auto. intros j Hj. apply in_seq in Hj. lia.
  Qed.

  Lemma form_table :
    sims_table rt (rmat os ds n C) (map (fun j => n - 1 - j) (seq 0 n)) (map (fun i => n - 1 - i) (seq 0 n))
      (rmat os ds n fi) (Fin c) sims resid gam
    = flat_map (fun s => flat_map (fun i => map (form_d T s i) (seq 0 n)) (seq 0 n)) (seq 0 sims).
  Proof.
    unfold sims_table.
    assert (Fe : forecasts (rmat os ds n C) (last_dev (rmat os ds n C) (map (fun i => n - 1 - i) (seq 0 n)))
      (bs_ldfs (rmat os ds n C) (map (fun j => n - 1 - j) (seq 0 n)) sims (samples rt (rmat os ds n C) (rmat os ds n fi) sims resid)) NaN
      (samples rt (rmat os ds n C) (rmat os ds n fi) sims resid) = cube sims n (FG os ds n fi rt resid)).
    { apply (forecasts_eq os ds n C fi So Sd Lo Ld Hn); auto. apply (fi_nn os ds); auto. }
    rewrite Fe. unfold process_error.
    change (gam (gparams (Fin c) (cube sims n (FG os ds n fi rt resid)))) with (gd os ds n fi rt sims resid (Fin c) gam).
    rewrite (final_groups_map _ n).
    2:{ intros e He. apply in_cube in He as (s & i & Hs & Hi & ->). apply FG_length; auto. }
    rewrite cube_length, combine_seq_cube, map_cube, flat_map_cube. cbn [fst snd Nat.add].
    apply flat_map_seq_ext. intros s Hs. apply flat_map_seq_ext. intros i Hi.
    assert (W := ffincs_eq os ds n C Sd Lo Ld Hn ltac:(lia) rt sims resid Nz c Cp gam V Gm s i ltac:(lia) ltac:(lia)).
    fold fi in W. rewrite W, <- surjective_pairing. apply form_group; lia.
  Qed.
End Form.
