(** Proof of C41, exactly: without noise the bootstrap reproduces the chain ladder if and
    only if no development factor is below 1. *)

From Coq Require Import String QArith Qcanon ZArith List Bool Lia Permutation Sorting.Sorted.
From Verif Require Import Val Frame Triangle A2A Base Mack Boot ListLib QcLib Spec Spec2 SpecSim SpecSimL SpecLeak TblFacts ConvFacts FillFacts
  TriClaims4 RegFacts AvgFacts MackFacts BuildFacts BaseClaims BootFit BootLib BootSim BootClaims BootNoise BootClaims2 BootForm SimClaims BootFormL
  SimLClaims BelowOne LeakClaims.
Import ListNotations.
Open Scope string_scope.
Open Scope list_scope.
Open Scope nat_scope.

Lemma first_below (f : nat -> Qc) N : (forall j, j < N -> (1 <= f j)%Qc) \/
  exists p, p < N /\ (forall k, k < p -> (1 <= f k)%Qc) /\ (f p < 1)%Qc.
Proof.
  induction N as [|N IH].
  - left. intros. lia.
  - destruct IH as [A|(p & Hp & A & B)].
    + destruct (qc_lt_le_dec (f N) 1) as [D|D].
      * right. exists N. auto.
      * left. intros j Hj. destruct (Nat.eq_dec j N) as [->|]; auto. apply A. lia.
    + right. exists p. auto.
Qed.

Section Noise.
  Variables (gm : list val -> val) (rt : val -> val) (m : lmat) (n : nat) (C : nat -> nat -> Qc) (cl rl : list nat)
         (ind : list (list val)) (w : nat -> nat -> bool) (sims : nat) (par : bool)
         (rng : list val -> (nat -> val) * (list (val * val) -> nat -> val)) (b : boot_result) (c : Qc).
  Hypothesis R : regular m n C.
  Hypothesis P : positive n C.
  Hypothesis Hn : 2 < n.
  Hypothesis Ev : tail_fits (m_cols m).
  Hypothesis Hi : forall i j, i + j < n - 1 -> cell ind i j = Fin (if w i j then 1 else 0)%Qc.
  Hypothesis Hl : forall j, j < n - 1 -> w (n - 2 - j) j = true.
  Hypothesis Cl : clvi m = Ok cl.
  Hypothesis Rl : rlvi m = Ok rl.
  Hypothesis Rt : root_like rt.
  Let t := mkTri m "origin" "dev" "value".
  Let f := vol_factor n C.

  Lemma base_rows : exists r, base_cl gm t cl ind (SelLabel "all-weighted") (Fin 1%Qc) = (SelLabel "all-weighted", Ok r) /\
    map s_origin (c_rows r) = m_idx m /\ map s_ultimate (c_rows r) = map (fun i => Fin (ultc n C i)) (seq 0 n).
  Proof.
    set (g := fun j => if S j <? n then vol_factor n C j else 1%Qc).
    destruct (base_cl_label gm m n C ind w "value" cl Weighted 0 1 g R P Hn Ev Cl Hi Hl) as (r & Eb & Ec).
    { apply in_avg_specs; auto. }
    { intros j Hj. unfold g. rewrite ltb_if by lia. reflexivity. }
    { unfold g. destruct (Nat.ltb_spec (S (n - 1)) n); [lia|auto]. }
    change (avg_label Weighted 0) with "all-weighted" in Eb.
    assert (Rows := c23_rows gm m n C "value" cl ind _ _ _ r g R ltac:(lia) Cl Eb Ec). cbv zeta in Rows.
    assert (Ug : forall i, i < n -> (C i (n - 1 - i)%nat * prodf (n - 1 - i) (n - (n - 1 - i)) g)%Qc = ultc n C i).
    { intros i Li. unfold ultc. replace (n - (n - 1 - i)) with (S i) by lia. rewrite prodf_Sr.
      replace (n - 1 - i + i) with (n - 1) by lia. unfold g at 2. destruct (Nat.ltb_spec (S (n - 1)) n); [lia|].
      rewrite (prodf_ext _ _ g (vol_factor n C)); [ring|]. intros k Hk. unfold g. apply ltb_if. lia. }
    assert (R' := R). apply regular_rmat in R' as (_ & _ & _ & Lo & _).
    exists r. split; [exact Eb|]. split.
    - rewrite Rows, map_map. cbn [s_origin]. rewrite <- Lo. apply map_nth_seq.
    - rewrite Rows, map_map. cbn [s_ultimate]. apply map_seq_ext. intros i Hi'. rewrite Ug by lia. reflexivity.
  Qed.

  Lemma ult_pos i : i < n -> (0 < ultc n C i)%Qc.
  Proof.
    intro L. unfold ultc. apply qc_mul_pos; [apply P; lia|]. apply prodf_pos'. intros k Hk. apply vol_pos; auto; lia.
  Qed.

  (** The row of an origin. *)
  Lemma row_of r i : map s_origin (c_rows r) = m_idx m -> map s_ultimate (c_rows r) = map (fun i => Fin (ultc n C i)) (seq 0 n) ->
    i < n -> exists row, In row (c_rows r) /\ s_origin row = nth i (m_idx m) 0%Z /\ s_ultimate row = Fin (ultc n C i).
  Proof.
    intros H1 H2 L. assert (Lr : length (c_rows r) = n).
    { rewrite <- (map_length s_ultimate), H2, map_length, seq_length. reflexivity. }
    destruct (c_rows r) as [|d rows] eqn:E; [cbn in Lr; lia|]. rewrite <- E in *.
    exists (nth i (c_rows r) d). split; [apply nth_In; lia|]. split.
    - rewrite <- H1. rewrite (nth_indep _ 0%Z (s_origin d)) by (rewrite map_length; lia). symmetry. apply map_nth.
    - assert (Q : nth i (map s_ultimate (c_rows r)) (s_ultimate d) = s_ultimate (nth i (c_rows r) d)) by apply map_nth.
      rewrite <- Q, H2. rewrite (nth_indep _ _ ((fun i => Fin (ultc n C i)) 0)) by (rewrite map_length, seq_length; lia).
      rewrite (map_nth (fun i => Fin (ultc n C i))). rewrite seq_nth by lia. reflexivity.
  Qed.

  Hypothesis D1 : nth 0 (m_cols m) 0%Z = 1%Z.
  Hypothesis Sp : 0 < sims.
  Hypothesis R0 : forall l k, fst (rng l) k = Fin 0%Qc.
  Hypothesis Gm : forall l ps k, snd (rng l) ps k = vmul (fst (nth k ps (NaN, NaN))) (snd (nth k ps (NaN, NaN))).
  Hypothesis B : boot_cl gm rt t cl rl ind sims par rng = Ok b.
  Hypothesis Sc : o_scale b = Fin c.
  Hypothesis Cp : (0 < c)%Qc.

  (** The first factor below 1 is not the last. *)
  Lemma wiped p : p + 2 < n -> (forall k, k < p -> (1 <= f k)%Qc) -> (f p < 1)%Qc ->
    exists x, In x (o_reserves b) /\ v_o x = nth (n - 2 - p) (m_idx m) 0%Z /\ v_ultimate x = Fin 0%Qc.
  Proof.
    intros Hp A1 A2.
    assert (Rf : forall k, k < sims * (n * n) -> exists q, fst (rng (o_dist b)) k = Fin q) by (intros; exists 0%Qc; apply R0).
    assert (Gz : forall ps k, nth k ps (NaN, NaN) = (Fin 0%Qc, Fin c) -> snd (rng (o_dist b)) ps k = Fin 0%Qc).
    { intros ps k E. rewrite Gm, E. cbn [fst snd vmul]. f_equal. ring. }
    destruct (c97_wiped gm rt m n C cl rl ind w sims par rng b c p R P Ev Hi Hl Rl Rt Hp A1 A2 D1 Sp B Sc Cp Rf Gz) as (E & _).
    exists (mkR 0 (nth (n - 2 - p) (m_idx m) 0%Z) (Fin 0%Qc) (Fin 0%Qc) (Fin 0%Qc)). split; [|auto].
    assert (I : In (mkR 0 (nth (n - 2 - p) (m_idx m) 0%Z) (Fin 0%Qc) (Fin 0%Qc) (Fin 0%Qc))
                   (filter (fun r => (v_o r =? nth (n - 2 - p) (m_idx m) 0)%Z) (o_reserves b))).
    { rewrite E. apply in_map_iff. exists 0. split; [reflexivity|]. apply in_seq. lia. }
    apply filter_In in I. apply I.
  Qed.

  (** It is the last. *)
  Lemma oldest_missing : (forall k, k < n - 2 -> (1 <= f k)%Qc) -> (f (n - 2)%nat < 1)%Qc ->
    exists x, In x (o_reserves b) /\ v_o x = nth 0 (m_idx m) 0%Z /\ v_ultimate x = NaN.
  Proof.
    intros A1 A2.
    assert (Ro : forall q, (0 <= q)%Qc -> rt (Fin q) = Fin (fq (rt (Fin q)))) by (intros q Hq; apply root_fin; auto).
    set (D := fitc n C (vol_factor n C)).
    assert (R' := R). apply regular_rmat in R' as (Em & So & Sd & Lo & Ld).
    assert (Of : o_fit_incr b = rmat (m_idx m) (m_cols m) n (incr_of D)).
    { assert (B' := B). clear Sc. unfold t in B'. rewrite (boot_eq m n C R P Hn Ev ind w Hi Hl) in B'. cbv zeta in B'.
      destruct (negb par && _ && _); [discriminate|]. injection B' as <-. reflexivity. }
    assert (Rm : regular (o_fit_incr b) n (incr_of D)) by (rewrite Of; apply rmat_regular; auto).
    assert (Tq : forall i j, resampled (incr_of D) (fun _ _ => 0%Qc) (fun q => fq (rt (Fin q))) i j = D i j).
    { intros i j. unfold resampled. rewrite <- (incr_row_gen D i j). apply sumf_ext. intros k Hk. ring. }
    assert (Nz : forall s j, s < sims -> j < n - 1 ->
      sumf 0 (n - 1 - j) (fun i => resampled (incr_of D) (fun _ _ => 0%Qc) (fun q => fq (rt (Fin q))) i j) <> 0%Qc).
    { intros s j Hs Hj. rewrite (sumf_ext _ _ _ (fun i => D i j)) by (intros; apply Tq).
      apply qc_pos_neq, sumf_pos; [lia|]. intros i Hi'. apply fitc_pos; auto; [|lia]. intros k Hk. apply vol_pos; auto; lia. }
    assert (Hv : forall ps s i j a, s < sims -> i < n -> j < n -> (0 <= a)%Qc ->
      nth (s * (n * n) + i * n + j) ps (NaN, NaN) = (Fin a, Fin c) ->
      snd (rng (o_dist b)) ps (s * (n * n) + i * n + j) = Fin ((fun _ _ _ a => (a * c)%Qc) s i j a)).
    { intros ps s i j a _ _ _ _ E. rewrite Gm, E. reflexivity. }
    assert (W := c42_leak gm rt (fun q => fq (rt (Fin q))) m n C (incr_of D) cl rl ind w sims par rng b c (fun _ _ _ => 0%Qc) (fun _ _ _ a => (a * c)%Qc)
      R P Hn Ev Hi Hl Cl Rl Rt Ro A1 A2 D1 B Sc Cp Rm (fun s i j _ _ _ => R0 _ _) Hv Nz).
    exists (mkR 0 (nth 0 (m_idx m) 0%Z) NaN NaN (Fin 0%Qc)). split; [|auto]. rewrite W.
    apply in_flat_map. exists 0. split; [apply in_seq; lia|]. apply in_map_iff. exists 0. split; [reflexivity|]. apply in_seq. lia.
  Qed.

  Lemma c41_iff : exists r, base_cl gm t cl ind (SelLabel "all-weighted") (Fin 1%Qc) = (SelLabel "all-weighted", Ok r) /\
    ((forall row x, In row (c_rows r) -> In x (o_reserves b) -> v_o x = s_origin row -> v_ultimate x = s_ultimate row) <->
     (forall j, j < n - 1 -> (1 <= f j)%Qc)).
  Proof.
    destruct base_rows as (r & Eb & Ro & Ru). exists r. split; [exact Eb|]. split.
    - intro A. destruct (first_below f (n - 1)) as [Q|(p & Hp & A1 & A2)]; [exact Q|exfalso].
      destruct (Nat.eq_dec p (n - 2)) as [->|Np].
      + destruct (oldest_missing A1 A2) as (x & Hx & Ex & Eu). destruct (row_of r 0 Ro Ru ltac:(lia)) as (row & Hr & E1 & E2).
        assert (Q := A row x Hr Hx ltac:(congruence)). congruence.
      + destruct (wiped p ltac:(lia) A1 A2) as (x & Hx & Ex & Eu). destruct (row_of r (n - 2 - p) Ro Ru ltac:(lia)) as (row & Hr & E1 & E2).
        assert (Q := A row x Hr Hx ltac:(congruence)). assert (U := ult_pos (n - 2 - p) ltac:(lia)).
        apply qc_pos_neq in U. apply U. congruence.
    - intros F1 row x Hr Hx Eo.
      destruct (c41 m n C R P Hn Ev ind w Hi Hl gm rt cl rl Cl Rl Rt F1 sims par rng b c D1 R0 Gm B Sc Cp) as (r' & Eb' & _ & Er & _).
      unfold t in Eb. rewrite Eb in Eb'. injection Eb' as <-. rewrite Er in Hx.
      apply in_flat_map in Hx as (row' & Hr' & Hx). apply in_map_iff in Hx as (s & <- & _). cbn [v_o v_ultimate] in *.
      assert (row' = row); [|congruence].
      assert (N : NoDup (map s_origin (c_rows r))).
      { rewrite Ro. assert (R' := R). apply regular_rmat in R' as (_ & So & _). apply zsorted_nodup; auto. }
      clear - N Hr Hr' Eo. induction (c_rows r) as [|a l IH]; [destruct Hr|]. inversion N as [|? ? N1 N2]; subst.
      destruct Hr as [->|Hr], Hr' as [->|Hr']; auto.
      + exfalso. apply N1. rewrite <- Eo. apply in_map. auto.
      + exfalso. apply N1. rewrite Eo. apply in_map. auto.
  Qed.
End Noise.
