(** Proofs about further factor rules in rounded arithmetic (C91). *)

From Coq Require Import String QArith Qcanon ZArith List Bool Lia Permutation.
From Verif Require Import Val Frame Triangle A2A Base Mack QcLib ListLib Spec SpecRound SpecRound2 Round Round2 RegFacts RoundClaims AvgFacts AvgClaims AvgClaims2 BaseClaims MackFacts MackExplicit MackClaims2.
Import ListNotations.
Open Scope list_scope.
Open Scope Qc_scope.

Section W.
  Variable u : Qc.
  Hypothesis U0 : 0 <= u.
  Hypothesis U1 : u < 1.
  Variable rd : Qc -> Qc.
  Hypothesis R : rounding u rd.

  Lemma qsum_map_nonneg {A} (x : A -> Qc) L : (forall i, In i L -> 0 <= x i) -> 0 <= qsum (map x L).
  Proof. intros H. apply qsum_nonneg. intros s Hs. apply in_map_iff in Hs as (i & <- & Hi). auto. Qed.

  Lemma summed_within_list k (L : list nat) (x y : nat -> Qc) z : summed rd (map y L) z ->
    (forall i, In i L -> 0 <= x i /\ within u k (x i) (y i)) ->
    within u (k + (List.length L - 1)) (qsum (map x L)) z.
  Proof.
    intros H Hxy. apply within_of_diffs; auto; [apply qsum_map_nonneg; intros i Hi; apply Hxy; exact Hi|].
    pose proof (summed_diffs u U0 U1 rd R k _ _ H (map (fun i => (x i, 0, y i)) L)) as D.
    rewrite !map_map in D. cbn [fst snd] in D. rewrite map_length in D.
    assert (Z : qsum (map (fun _ : nat => 0) L) = 0) by (rewrite qsum_map_const; ring).
    rewrite Z in D. apply D; [reflexivity|].
    intros p Hp. apply in_map_iff in Hp as (i & <- & Hi). cbn [fst snd].
    destruct (Hxy i Hi) as [A B]. split; [exact A|]. split; [apply Qcle_refl|apply within_diffs; exact B].
  Qed.

  Section Factors.
    Variables (n c : nat) (C C' : nat -> nat -> Qc).
    Hypothesis Pos : forall i j, (i + j < n)%nat -> 0 < C i j.
    Hypothesis Cells : forall i j, (i + j < n)%nat -> within u c (C i j) (C' i j).

    Lemma link_within i j : (S (i + j) < n)%nat -> within u (S (c + c)) (C i (S j) / C i j) (rd_link rd C' i j).
    Proof.
      intros H. assert (0 < C i (S j)) by (apply Pos; lia). assert (0 < C i j) by (apply Pos; lia).
      apply within_rd; auto; [apply Qclt_le_weak, qc_div_pos; assumption|].
      apply within_div; auto; [apply Qclt_le_weak; assumption|apply Cells; lia|apply Cells; lia].
    Qed.
    Lemma qsum_map_pos (x : nat -> Qc) L : L <> [] -> (forall i, In i L -> 0 < x i) -> 0 < qsum (map x L).
    Proof.
      intros H Hx. apply qsum_pos; [intros E; apply map_eq_nil in E; auto|].
      intros s Hs. apply in_map_iff in Hs as (i & <- & Hi). auto.
    Qed.
    Lemma summed_len L y z : summed rd (map y L) z -> (0 < @List.length nat L)%nat.
    Proof. intros H. apply summed_ne in H. destruct L; [exfalso; apply H; reflexivity|simpl; lia]. Qed.

    Lemma weighted_within rows j v : (forall i, In i rows -> (S (i + j) < n)%nat) -> rd_weighted rd C' rows j v ->
      within u (2 * c + 2 * List.length rows) (qsum (map (fun i => C i (S j)) rows) / qsum (map (fun i => C i j) rows)) v.
    Proof.
      intros Hr (a & b & Ha & Hb & ->). pose proof (summed_len _ _ _ Ha) as Ln.
      assert (Ne : rows <> []) by (intros ->; simpl in Ln; lia).
      apply (summed_within_list c rows (fun i => C i (S j))) in Ha.
      2:{ intros i Hi. specialize (Hr i Hi). split; [apply Qclt_le_weak, Pos; lia|apply Cells; lia]. }
      apply (summed_within_list c rows (fun i => C i j)) in Hb.
      2:{ intros i Hi. specialize (Hr i Hi). split; [apply Qclt_le_weak, Pos; lia|apply Cells; lia]. }
      assert (P1 : 0 < qsum (map (fun i => C i (S j)) rows)) by (apply qsum_map_pos; auto; intros i Hi; specialize (Hr i Hi); apply Pos; lia).
      assert (P2 : 0 < qsum (map (fun i => C i j) rows)) by (apply qsum_map_pos; auto; intros i Hi; specialize (Hr i Hi); apply Pos; lia).
      assert (P3 : 0 <= qsum (map (fun i => C i (S j)) rows) / qsum (map (fun i => C i j) rows)) by (apply Qclt_le_weak, qc_div_pos; assumption).
      apply (within_mono u U0 U1 (S ((c + (List.length rows - 1)) + (c + (List.length rows - 1))))); [lia|exact P3|].
      apply within_rd; auto. apply within_div; auto. apply Qclt_le_weak; assumption.
    Qed.

    Lemma simple_within rows j v : (forall i, In i rows -> (S (i + j) < n)%nat) -> rd_simple rd C' rows j v ->
      within u (2 * c + 2 + List.length rows) (mean (map (fun i => C i (S j) / C i j) rows)) v.
    Proof.
      intros Hr (s & Hs & ->). pose proof (summed_len _ _ _ Hs) as Ln.
      assert (LP : forall i, In i rows -> 0 < C i (S j) / C i j).
      { intros i Hi. specialize (Hr i Hi). apply qc_div_pos; apply Pos; lia. }
      apply (summed_within_list (2 * c + 2) rows (fun i => C i (S j) / C i j)) in Hs.
      2:{ intros i Hi. specialize (LP i Hi). split; [apply Qclt_le_weak, LP|].
          replace (2 * c + 2)%nat with (S (S (c + c))) by lia.
          apply within_rd; auto; [apply Qclt_le_weak, LP|]. rewrite Qcmult_1_r. apply link_within. auto. }
      unfold mean. rewrite map_length.
      assert (P1 : 0 < qsum (map (fun i => C i (S j) / C i j) rows)).
      { apply qsum_map_pos; auto. intros ->. simpl in Ln. lia. }
      assert (P2 : 0 < qn (List.length rows)) by (apply qn_pos; exact Ln).
      replace (2 * c + 2 + List.length rows)%nat with (S ((2 * c + 2 + (List.length rows - 1)) + 0)) by lia.
      apply within_rd; auto; [apply Qclt_le_weak, qc_div_pos; assumption|].
      apply within_div; auto; [apply Qclt_le_weak; assumption|apply within_refl].
    Qed.

    Lemma pow_within al x y : 0 < x -> within u c x y -> within u (al * (c + 1)) (x ^ al) (rd_pow rd y al).
    Proof.
      intros Hx Hy. induction al as [|al IH]; cbn [rd_pow].
      - simpl. apply within_refl.
      - assert (0 < x ^ al) by (apply qpow_pos; exact Hx).
        replace (S al * (c + 1))%nat with (S (c + al * (c + 1))) by lia. cbn [Qcpower].
        apply within_rd; auto; [apply Qclt_le_weak, qc_mul_pos; assumption|].
        apply within_mul; auto; apply Qclt_le_weak; assumption.
    Qed.

    Lemma mack_within W al rows j v : (forall i, In i rows -> (S (i + j) < n)%nat /\ 0 < W i j) ->
      rd_mack rd C' W al rows j v ->
      within u (3 + 2 * c + 2 * al * (c + 1) + 2 * List.length rows)
        (qsum (map (fun i => W i j * C i j ^ al * (C i (S j) / C i j)) rows) / qsum (map (fun i => W i j * C i j ^ al) rows)) v.
    Proof.
      intros Hr (a & b & Ha & Hb & ->). pose proof (summed_len _ _ _ Ha) as Ln.
      assert (Ne : rows <> []) by (intros ->; simpl in Ln; lia).
      assert (PC : forall i, In i rows -> 0 < C i j ^ al) by (intros i Hi; destruct (Hr i Hi); apply qpow_pos, Pos; lia).
      assert (PL : forall i, In i rows -> 0 < C i (S j) / C i j) by (intros i Hi; destruct (Hr i Hi); apply qc_div_pos; apply Pos; lia).
      assert (PW : forall i, In i rows -> 0 < W i j) by (intros i Hi; apply Hr; exact Hi).
      assert (PD : forall i, In i rows -> 0 < W i j * C i j ^ al) by (intros i Hi; apply qc_mul_pos; auto).
      assert (PN : forall i, In i rows -> 0 < W i j * C i j ^ al * (C i (S j) / C i j)) by (intros i Hi; apply qc_mul_pos; auto).
      apply (summed_within_list (3 + 2 * c + al * (c + 1)) rows (fun i => W i j * C i j ^ al * (C i (S j) / C i j))) in Ha.
      2:{ intros i Hi. split; [apply Qclt_le_weak, PN; exact Hi|]. destruct (Hr i Hi) as [Hn Hw].
          replace (W i j * C i j ^ al * (C i (S j) / C i j)) with ((C i (S j) / C i j) * W i j * C i j ^ al) by ring.
          assert (P1 : 0 < C i (S j) / C i j * W i j) by (apply qc_mul_pos; auto).
          replace (3 + 2 * c + al * (c + 1))%nat with (S ((S (S (c + c) + 0)) + al * (c + 1)))%nat by lia.
          apply within_rd; auto; [apply Qclt_le_weak, qc_mul_pos; auto|].
          apply within_mul; auto; try (apply Qclt_le_weak; auto; fail).
          - apply within_rd; auto; [apply Qclt_le_weak; assumption|].
            apply within_mul; auto; try (apply Qclt_le_weak; auto; fail). apply link_within. auto. apply within_refl.
          - apply pow_within; [apply Pos; lia|apply Cells; lia]. }
      apply (summed_within_list (1 + al * (c + 1)) rows (fun i => W i j * C i j ^ al)) in Hb.
      2:{ intros i Hi. split; [apply Qclt_le_weak, PD; exact Hi|]. destruct (Hr i Hi) as [Hn Hw].
          replace (1 + al * (c + 1))%nat with (S (0 + al * (c + 1)))%nat by lia.
          apply within_rd; auto; [apply Qclt_le_weak; auto|].
          apply within_mul; auto; try (apply Qclt_le_weak; auto; fail); [apply within_refl|].
          apply pow_within; [apply Pos; lia|apply Cells; lia]. }
      assert (P1 : 0 < qsum (map (fun i => W i j * C i j ^ al * (C i (S j) / C i j)) rows)) by (apply qsum_map_pos; auto).
      assert (P2 : 0 < qsum (map (fun i => W i j * C i j ^ al) rows)) by (apply qsum_map_pos; auto).
      replace (3 + 2 * c + 2 * al * (c + 1) + 2 * List.length rows)%nat
        with (S ((3 + 2 * c + al * (c + 1) + (List.length rows - 1)) + (1 + al * (c + 1) + (List.length rows - 1))))%nat by lia.
      apply within_rd; auto; [apply Qclt_le_weak, qc_div_pos; assumption|].
      apply within_div; auto. apply Qclt_le_weak; assumption.
    Qed.

    (** The chain ladder on factors known up to roundings. *)
    Variables (a b : nat) (f f' : nat -> Qc).
    Hypothesis Fp : forall j, (j < n)%nat -> 0 < f j.
    Hypothesis Fw : forall j, (S j < n)%nat -> within u (a + b * (n - 1 - j)) (f j) (f' j).
    Hypothesis Fl : f' (n - 1)%nat = f (n - 1)%nat.
    Definition kc (i : nat) : nat := i * (a + b * i + 1).
    Definition ku (i : nat) : nat := kc i + c + 1.
    Lemma kc_mono i k : (i <= k)%nat -> (kc i <= kc k)%nat.
    Proof. unfold kc. intros H. apply Nat.mul_le_mono; [exact H|]. pose proof (Nat.mul_le_mono_l _ _ b H). lia. Qed.
    Lemma prod_pos i : (i < n)%nat -> 0 < prodf (n - 1 - i) (S i) f.
    Proof. intros Hi. apply prodf_pos. intros j Hj. apply Fp. lia. Qed.
    Lemma cldf2_within i : (i < n)%nat -> within u (kc i) (prodf (n - 1 - i) (S i) f) (rd_cldf rd f' (n - 1 - i) i).
    Proof.
      induction i as [|i IH]; intros Hi.
      - cbn [rd_cldf]. replace (n - 1 - 0)%nat with (n - 1)%nat by lia. rewrite Fl. unfold prodf. simpl.
        rewrite Qcmult_1_r. apply within_refl.
      - specialize (IH ltac:(lia)). pose proof (prod_pos i ltac:(lia)) as P1. rewrite prodf_Sl.
        replace (n - 1 - i)%nat with (S (n - 1 - S i)) in IH, P1 by lia.
        pose proof (Fw (n - 1 - S i) ltac:(lia)) as W1. pose proof (Fp (n - 1 - S i) ltac:(lia)) as P2.
        replace (n - 1 - (n - 1 - S i))%nat with (S i) in W1 by lia.
        cbn [rd_cldf]. rewrite (Qcmult_comm (f _)).
        apply (within_mono u U0 U1 (S (kc i + (a + b * S i)))); [unfold kc; nia|apply Qclt_le_weak, qc_mul_pos; assumption|].
        apply within_rd; auto; [apply Qclt_le_weak, qc_mul_pos; assumption|].
        apply within_mul; auto; apply Qclt_le_weak; assumption.
    Qed.
    Definition ultf i := C i (n - 1 - i)%nat * prodf (n - 1 - i) (S i) f.
    Lemma ultf_pos i : (i < n)%nat -> 0 < ultf i.
    Proof. intros Hi. apply qc_mul_pos; [apply Pos; lia|apply prod_pos; exact Hi]. Qed.
    Variables (ult rsv : nat -> Qc) (tult trsv : Qc).
    Hypothesis Run : rd_ladder rd n C' f' ult rsv tult trsv.
    Hypothesis Hn : (0 < n)%nat.
    Hypothesis Small : qn (ku (n - 1) + n) * u < 1.
    Lemma small k : (k <= ku (n - 1) + n)%nat -> qn k * u < 1.
    Proof. intros Hk. eapply Qcle_lt_trans; [|exact Small]. apply Qcmult_le_compat_r; [apply qn_le; exact Hk|exact U0]. Qed.
    Lemma ku_mono i : (i < n)%nat -> (ku i <= ku (n - 1))%nat.
    Proof. intros H. unfold ku. pose proof (kc_mono i (n - 1) ltac:(lia)). lia. Qed.
    Lemma ultw i : (i < n)%nat -> within u (ku i) (ultf i) (ult i).
    Proof.
      intros Hi. destruct Run as (H & _). destruct (H i Hi) as [-> _].
      replace (ku i) with (S (c + kc i)) by (unfold ku; lia).
      pose proof (prod_pos i Hi) as P1. assert (P2 : 0 < C i (n - 1 - i)%nat) by (apply Pos; lia).
      apply within_rd; auto; [apply Qclt_le_weak, ultf_pos; exact Hi|].
      apply within_mul; auto; try (apply Qclt_le_weak; assumption); [apply Cells; lia|apply cldf2_within; exact Hi].
    Qed.
    Lemma rsvd i : (i < n)%nat -> diffs u (ku i + 1) (ultf i) (C i (n - 1 - i)%nat) (rsv i).
    Proof.
      intros Hi. pose proof (ultw i Hi) as Hu. destruct Run as (H & _). destruct (H i Hi) as [_ ->].
      replace (ku i + 1)%nat with (S (ku i)) by lia. assert (P2 : 0 < C i (n - 1 - i)%nat) by (apply Pos; lia).
      apply diffs_rd; auto; [apply Qclt_le_weak, ultf_pos; exact Hi|apply Qclt_le_weak; assumption|].
      exists (ult i), (C' i (n - 1 - i)%nat). split; [reflexivity|]. split; [exact Hu|].
      eapply within_mono; [exact U0|exact U1| |apply Qclt_le_weak; assumption|apply Cells; lia]. unfold ku. lia.
    Qed.
    Lemma ladder :
      (forall i, (i < n)%nat ->
         close (gamma u (ku i) * ultf i) (ult i) (ultf i) /\
         close (gamma u (ku i + 1) * (ultf i + C i (n - 1 - i)%nat)) (rsv i) (ultf i - C i (n - 1 - i)%nat)) /\
      close (gamma u (ku (n - 1) + (n - 1)) * sumf 0 n ultf) tult (sumf 0 n ultf) /\
      close (gamma u (ku (n - 1) + n) * (sumf 0 n ultf + sumf 0 n (fun i => C i (n - 1 - i)%nat))) trsv
            (sumf 0 n ultf - sumf 0 n (fun i => C i (n - 1 - i)%nat)).
    Proof.
      assert (UP : forall i, (i < n)%nat -> 0 <= ultf i) by (intros i Hi; apply Qclt_le_weak, ultf_pos; exact Hi).
      assert (LP : forall i, (i < n)%nat -> 0 <= C i (n - 1 - i)%nat) by (intros; apply Qclt_le_weak, Pos; lia).
      split; [|split].
      - intros i Hi. pose proof (ku_mono i Hi). split.
        + apply within_close; auto; [apply small; lia|apply ultw; exact Hi].
        + apply gamma_bound; auto; [apply small; lia|apply rsvd; exact Hi].
      - apply within_close; auto; [apply sumf_nonneg; intros; apply UP; lia|apply small; lia|].
        destruct Run as (_ & Hu & _). eapply summed_within; eauto. intros i Hi. split; [apply UP; exact Hi|].
        eapply within_mono; [exact U0|exact U1|apply ku_mono; exact Hi|apply UP; exact Hi|apply ultw; exact Hi].
      - apply gamma_bound; auto; [apply sumf_nonneg; intros; apply UP; lia|apply sumf_nonneg; intros; apply LP; lia|].
        destruct Run as (_ & _ & Hr).
        replace (ku (n - 1) + n)%nat with (ku (n - 1) + 1 + (n - 1))%nat by lia.
        pose proof (summed_diffs u U0 U1 rd R (ku (n - 1) + 1) _ _ Hr
          (map (fun i => (ultf i, C i (n - 1 - i)%nat, rsv i)) (seq 0 n))) as D.
        rewrite !map_map in D. cbn [fst snd] in D. rewrite map_length, seq_length in D. apply D; [reflexivity|].
        intros p Hp. apply in_map_iff in Hp as (i & <- & Hin). apply in_seq in Hin. cbn [fst snd].
        split; [apply UP; lia|]. split; [apply LP; lia|]. pose proof (ku_mono i ltac:(lia)).
        eapply diffs_mono; [exact U0|exact U1| |apply UP; lia|apply LP; lia|apply rsvd; lia]. lia.
    Qed.
  End Factors.
End W.

(** From the result of base_cl or mack_cl on the factors [f]. *)
Lemma ladder_rows m n C (f f' : nat -> Qc) a b u rd c C' ult rsv tult trsv rows total :
  (0 < n)%nat -> positive n C ->
  rows = map (fun i => let k := (n - 1 - i)%nat in let cldf := prodf k (n - k) f in
      mkRow (nth i (m_idx m) 0%Z) (nth k (m_cols m) 0%Z) (Fin cldf) (vdiv (Fin 1%Qc) (Fin cldf))
            (Fin (C i k)) (Fin (C i k * cldf)%Qc) (Fin (C i k * cldf - C i k)%Qc)) (seq 0 n) ->
  total = (Fin (sumf 0 n (fun i => C i (n - 1 - i)%nat)),
               Fin (sumf 0 n (fun i => C i (n - 1 - i)%nat * prodf (n - 1 - i) (n - (n - 1 - i)) f)%Qc),
               Fin (sumf 0 n (fun i => C i (n - 1 - i)%nat * prodf (n - 1 - i) (n - (n - 1 - i)) f - C i (n - 1 - i)%nat)%Qc)) ->
  rounding u rd -> (forall i j, (i + j < n)%nat -> within u c (C i j) (C' i j)) ->
  (forall j, (j < n)%nat -> 0 < f j) ->
  (forall j, (S j < n)%nat -> within u (a + b * (n - 1 - j)) (f j) (f' j)) -> f' (n - 1)%nat = f (n - 1)%nat ->
  rd_ladder rd n C' f' ult rsv tult trsv ->
  qn (ku c a b (n - 1) + n) * u < 1 ->
  rounded_as u n (ku c a b) rows total ult rsv tult trsv.
Proof.
  intros Hn P Rows Tot Rd Cells Fp Fw Fl Run Small.
  assert (U0 : 0 <= u) by apply Rd. assert (U1 : u < 1) by apply Rd.
  destruct (ladder u U0 U1 rd Rd n c C C' P Cells a b f f' Fp Fw Fl ult rsv tult trsv Run Hn Small) as (H1 & H2 & H3).
  split.
  - intros i row Hrow. rewrite Rows in Hrow. assert (Hin : (i < n)%nat).
    { assert (N : nth_error (map (fun i => let k := (n - 1 - i)%nat in let cldf := prodf k (n - k) f in
          mkRow (nth i (m_idx m) 0%Z) (nth k (m_cols m) 0%Z) (Fin cldf) (vdiv (Fin 1%Qc) (Fin cldf))
            (Fin (C i k)) (Fin (C i k * cldf)%Qc) (Fin (C i k * cldf - C i k)%Qc)) (seq 0 n)) i <> None) by (rewrite Hrow; discriminate).
      apply nth_error_Some in N. rewrite map_length, seq_length in N. exact N. }
    erewrite map_nth_error in Hrow; [|rewrite nth_error_nth' with (d := 0%nat) by (rewrite seq_length; exact Hin); rewrite seq_nth by exact Hin; reflexivity].
    injection Hrow as <-. cbn [s_latest s_ultimate s_reserve].
    assert (E : C i (n - 1 - i)%nat * prodf (n - 1 - i) (n - (n - 1 - i)) f = ultf n C f i).
    { unfold ultf. replace (n - (n - 1 - i))%nat with (S i) by lia. reflexivity. }
    simpl (0 + i)%nat. rewrite E. exists (ultf n C f i), (C i (n - 1 - i)%nat).
    do 3 (split; [reflexivity|]). destruct (H1 i Hin) as [A B]. split; assumption.
  - assert (ES : sumf 0 n (fun i => C i (n - 1 - i)%nat * prodf (n - 1 - i) (n - (n - 1 - i)) f) = sumf 0 n (ultf n C f)).
    { apply sumf_ext. intros i Hin. unfold ultf. replace (n - (n - 1 - i))%nat with (S i) by lia. reflexivity. }
    exists (sumf 0 n (ultf n C f)), (sumf 0 n (fun i => C i (n - 1 - i)%nat)).
    split; [rewrite Tot, sumf_sub, ES; reflexivity|]. split; assumption.
Qed.

Lemma window_rows_of k N : window_rows k N = rows_of k N.
Proof.
  unfold window_rows. destruct (Nat.eqb_spec k 0) as [->|H]; [reflexivity|]. symmetry. apply rows_of_latest. lia.
Qed.
Lemma len_rows k N : (List.length (rows_of k N) <= N)%nat.
Proof. unfold rows_of. destruct (k =? 0)%nat; rewrite seq_length; lia. Qed.
Lemma flen {A} (p : A -> bool) l : (List.length (filter p l) <= List.length l)%nat.
Proof. induction l as [|x l IH]; simpl; [lia|]. destruct (p x); simpl; lia. Qed.

Lemma c91_weighted gm m n C w cl tail k : regular m n C -> positive n C -> (2 < n)%nat -> tail_fits (m_cols m) -> clvi m = Ok cl ->
  0 < tail -> k = 0%nat \/ (1 <= k < n - 1)%nat ->
  exists r, base_cl gm (mkTri m "origin" "dev" w) cl (a2aind_init m) (SelLabel (avg_label Weighted k)) (Fin tail)
              = (SelLabel (avg_label Weighted k), Ok r) /\
  forall u rd c (C' : nat -> nat -> Qc) f ult rsv tult trsv,
  rounding u rd -> (forall i j, (i + j < n)%nat -> roundings u c (C i j) (C' i j)) ->
  (forall j, (j < n - 1)%nat -> rd_weighted rd C' (window_rows k (n - 1 - j)) j (f j)) -> f (n - 1)%nat = tail ->
  rd_ladder rd n C' f ult rsv tult trsv ->
  qn (ku c (2 * c) 2 (n - 1) + n) * u < 1 ->
  rounded_as u n (ku c (2 * c) 2) (c_rows r) (c_total r) ult rsv tult trsv.
Proof.
  intros Rg P Hn Ev Hcl Ht Hk. set (g := fun j => if (j <? n - 1)%nat then qsum (map (fun i => C i (S j)) (rows_of k (n - 1 - j))) / qsum (map (fun i => C i j) (rows_of k (n - 1 - j))) else tail).
  assert (Rg' := Rg). apply regular_rmat in Rg' as (E & So & Sd & Lo & Ld).
  destruct (base_cl_label gm m n C (a2aind_init m) (fun _ _ => true) w cl Weighted k tail g) as (r & B & L); auto.
  { intros i j Lt. rewrite E. apply ind_init; auto. lia. }
  { apply in_avg_specs. exact Hk. }
  { intros j Hj. unfold g. rewrite ltb_if by lia. reflexivity. }
  { unfold g. rewrite nltb_if by lia. reflexivity. }
  exists r. split; [exact B|]. intros u rd c C' f ult rsv tult trsv Rd Cells Hf Hl Run Small.
  assert (U0 : 0 <= u) by apply Rd. assert (U1 : u < 1) by apply Rd.
  destruct (c23_regular gm m n C w cl _ _ _ _ r g Rg ltac:(lia) Hcl B L) as (Rows & Tot & _).
  assert (Gp : forall j, (j < n)%nat -> 0 < g j).
  { intros j Hj. unfold g. destruct (Nat.ltb_spec j (n - 1)); [|exact Ht].
    assert (Ne : rows_of k (n - 1 - j) <> []).
    { intros Z. pose proof (rows_last k (n - 1 - j) ltac:(lia)) as Q. rewrite Z in Q. exact Q. }
    apply qc_div_pos; apply qsum_map_pos; auto; intros i Hi; apply in_rows in Hi; apply P; lia. }
  apply (ladder_rows m n C g f (2 * c) 2 u rd c C' ult rsv tult trsv); auto; try lia.
  - intros j Hj. specialize (Hf j ltac:(lia)). rewrite window_rows_of in Hf. pose proof (Gp j ltac:(lia)) as G.
    apply (within_mono u U0 U1 (2 * c + 2 * List.length (rows_of k (n - 1 - j)))); [pose proof (len_rows k (n - 1 - j)); lia|apply Qclt_le_weak, G|].
    unfold g. rewrite ltb_if by lia. eapply weighted_within; eauto. intros i Hi. apply in_rows in Hi. lia.
  - rewrite Hl. unfold g. rewrite nltb_if by lia. reflexivity.
Qed.

Lemma c91_simple gm m n C w cl tail k ind (inc : nat -> nat -> bool) : regular m n C -> positive n C -> (2 < n)%nat -> tail_fits (m_cols m) -> clvi m = Ok cl ->
  0 < tail -> k = 0%nat \/ (1 <= k < n - 1)%nat ->
  (forall i j, (i + j < n - 1)%nat -> cell ind i j = Fin (if inc i j then 1 else 0)%Qc) ->
  (forall j, (j < n - 1)%nat -> inc (n - 2 - j)%nat j = true) ->
  exists r, base_cl gm (mkTri m "origin" "dev" w) cl ind (SelLabel (avg_label Simple k)) (Fin tail)
              = (SelLabel (avg_label Simple k), Ok r) /\
  forall u rd c (C' : nat -> nat -> Qc) f ult rsv tult trsv,
  rounding u rd -> (forall i j, (i + j < n)%nat -> roundings u c (C i j) (C' i j)) ->
  (forall j, (j < n - 1)%nat -> rd_simple rd C' (filter (fun i => inc i j) (window_rows k (n - 1 - j))) j (f j)) -> f (n - 1)%nat = tail ->
  rd_ladder rd n C' f ult rsv tult trsv ->
  qn (ku c (2 * c + 2) 1 (n - 1) + n) * u < 1 ->
  rounded_as u n (ku c (2 * c + 2) 1) (c_rows r) (c_total r) ult rsv tult trsv.
Proof.
  intros Rg P Hn Ev Hcl Ht Hk Hi Hlast. set (g := fun j => if (j <? n - 1)%nat then mean (map (fun i => C i (S j) / C i j) (filter (fun i => inc i j) (rows_of k (n - 1 - j)))) else tail).
  destruct (base_cl_label gm m n C ind inc w cl Simple k tail g) as (r & B & L); auto.
  { apply in_avg_specs. exact Hk. }
  { intros j Hj. unfold g. rewrite ltb_if by lia. reflexivity. }
  { unfold g. rewrite nltb_if by lia. reflexivity. }
  exists r. split; [exact B|]. intros u rd c C' f ult rsv tult trsv Rd Cells Hf Hl Run Small.
  assert (U0 : 0 <= u) by apply Rd. assert (U1 : u < 1) by apply Rd.
  destruct (c23_regular gm m n C w cl _ _ _ _ r g Rg ltac:(lia) Hcl B L) as (Rows & Tot & _).
  assert (Gp : forall j, (j < n)%nat -> 0 < g j).
  { intros j Hj. unfold g. destruct (Nat.ltb_spec j (n - 1)); [|exact Ht].
    assert (Ne : filter (fun i => inc i j) (rows_of k (n - 1 - j)) <> []).
    { intros Z. pose proof (rows_last k (n - 1 - j) ltac:(lia)) as Q.
      assert (Q' : In (n - 1 - j - 1)%nat (filter (fun i => inc i j) (rows_of k (n - 1 - j)))).
      { apply filter_In. split; [exact Q|]. replace (n - 1 - j - 1)%nat with (n - 2 - j)%nat by lia. auto. }
      rewrite Z in Q'. exact Q'. }
    unfold mean. rewrite map_length. apply qc_div_pos.
    - apply qsum_map_pos; auto. intros i Hi'. apply filter_In in Hi' as [Hi' _]. apply in_rows in Hi'. apply qc_div_pos; apply P; lia.
    - apply qn_pos. destruct (filter _ _); [congruence|simpl; lia]. }
  apply (ladder_rows m n C g f (2 * c + 2) 1 u rd c C' ult rsv tult trsv); auto; try lia.
  - intros j Hj. specialize (Hf j ltac:(lia)). rewrite window_rows_of in Hf. pose proof (Gp j ltac:(lia)) as G.
    apply (within_mono u U0 U1 (2 * c + 2 + List.length (filter (fun i => inc i j) (rows_of k (n - 1 - j))))).
    + pose proof (len_rows k (n - 1 - j)). pose proof (flen (fun i => inc i j) (rows_of k (n - 1 - j))). lia.
    + apply Qclt_le_weak, G.
    + unfold g. rewrite ltb_if by lia. eapply simple_within; eauto.
      intros i Hi'. apply filter_In in Hi' as [Hi' _]. apply in_rows in Hi'. lia.
  - rewrite Hl. unfold g. rewrite nltb_if by lia. reflexivity.
Qed.

Lemma sumf_pos_rows (p : nat -> bool) a N (x : nat -> Qc) : (forall i, (a <= i < a + N)%nat -> p i = false -> x i = 0) ->
  sumf a N x = qsum (map x (filter p (seq a N))).
Proof.
  revert a. induction N as [|N IH]; intros a H; [reflexivity|]. rewrite sumf_Sl. cbn [seq filter].
  rewrite (IH (S a)) by (intros i Hi; apply H; lia). destruct (p a) eqn:E; cbn [map qsum]; [reflexivity|].
  rewrite (H a ltac:(lia) E). ring.
Qed.

Lemma c91_mack m n C ind W al v cl tail : regular m n C -> positive n C -> (3 < n)%nat -> tail_fits (m_cols m) ->
  clvi m = Ok cl -> weights ind n W ->
  exists k, mack_cl (mkTri m "origin" "dev" v) cl ind al tail = Ok k /\
  forall u rd c (C' : nat -> nat -> Qc) f ult rsv tult trsv,
  rounding u rd -> (forall i j, (i + j < n)%nat -> roundings u c (C i j) (C' i j)) ->
  (forall j, (j < n - 1)%nat -> rd_mack rd C' W al (filter (fun i => qcltb 0 (W i j)) (seq 0 (n - 1 - j))) j (f j)) ->
  f (n - 1)%nat = 1 ->
  rd_ladder rd n C' f ult rsv tult trsv ->
  qn (ku c (3 + 2 * c + 2 * al * (c + 1)) 2 (n - 1) + n) * u < 1 ->
  rounded_as u n (ku c (3 + 2 * c + 2 * al * (c + 1)) 2) (c_rows (k_cl k)) (c_total (k_cl k)) ult rsv tult trsv.
Proof.
  intros Rg P Hn Ev Hcl Hw. eexists. split; [apply (mack_explicit m n C ind W al v cl tail); auto|].
  intros u rd c C' f ult rsv tult trsv Rd Cells Hf Hl Run Small. destruct Hw as (_ & Wn & Wc).
  assert (U0 : 0 <= u) by apply Rd. assert (U1 : u < 1) by apply Rd.
  assert (Xf : forall j, (S j < n)%nat -> xf n C W al j =
    qsum (map (fun i => W i j * C i j ^ al * (C i (S j) / C i j)) (filter (fun i => qcltb 0 (W i j)) (seq 0 (n - 1 - j))))
    / qsum (map (fun i => W i j * C i j ^ al) (filter (fun i => qcltb 0 (W i j)) (seq 0 (n - 1 - j))))).
  { intros j Hj. unfold xf. rewrite ltb_if by lia.
    assert (Wz : forall i, (0 <= i < 0 + (n - 1 - j))%nat -> qcltb 0 (W i j) = false -> W i j = 0).
    { intros i Hi' Z. destruct (qcltb_spec 0 (W i j)) as [|Nl]; [discriminate|].
      apply Qcle_antisym; [apply Qcnot_lt_le; exact Nl|apply Wn; lia]. }
    f_equal; [|f_equal]; apply sumf_pos_rows; intros i Hi' Z; rewrite (Wz i Hi' Z); ring. }
  assert (Gp : forall j, (j < n)%nat -> 0 < xf n C W al j).
  { intros j Hj. destruct (Nat.ltb_spec (S j) n) as [H|H].
    - rewrite Xf by exact H. destruct (Wc j ltac:(lia)) as (i0 & Hi0 & Hp).
      assert (Ne : filter (fun i => qcltb 0 (W i j)) (seq 0 (n - 1 - j)) <> []).
      { intros Z. assert (Q : In i0 (filter (fun i => qcltb 0 (W i j)) (seq 0 (n - 1 - j)))).
        { apply filter_In. split; [apply in_seq; lia|]. apply qcltb_lt. exact Hp. }
        rewrite Z in Q. exact Q. }
      apply qc_div_pos; apply qsum_map_pos; auto; intros i Hi'; apply filter_In in Hi' as [Hi' Hq]; apply in_seq in Hi'; apply qcltb_lt in Hq.
      + apply qc_mul_pos; [apply qc_mul_pos; [exact Hq|apply qpow_pos, P; lia]|apply qc_div_pos; apply P; lia].
      + apply qc_mul_pos; [exact Hq|apply qpow_pos, P; lia].
    - unfold xf. rewrite nltb_if by lia. reflexivity. }
  apply (ladder_rows m n C (xf n C W al) f (3 + 2 * c + 2 * al * (c + 1)) 2 u rd c C' ult rsv tult trsv); auto; try lia.
  - cbn [mack_pure k_cl c_rows]. apply map_seq_ext. intros i Hi'. unfold xrow, xlat, xcdf. cbv zeta.
    replace (n - (n - 1 - i))%nat with (S i) by lia. reflexivity.
  - cbn [mack_pure k_cl c_total]. unfold xlat, xcdf.
    assert (ES : forall i, (0 <= i < 0 + n)%nat -> prodf (n - 1 - i) (n - (n - 1 - i)) (xf n C W al) = prodf (n - 1 - i) (S i) (xf n C W al)).
    { intros i Hi'. replace (n - (n - 1 - i))%nat with (S i) by lia. reflexivity. }
    f_equal; [f_equal|]; f_equal; apply sumf_ext; intros i Hi'; rewrite ES by lia; reflexivity.
  - intros j Hj. specialize (Hf j ltac:(lia)). pose proof (Gp j ltac:(lia)) as G.
    apply (within_mono u U0 U1 (3 + 2 * c + 2 * al * (c + 1) + 2 * List.length (filter (fun i => qcltb 0 (W i j)) (seq 0 (n - 1 - j))))).
    + pose proof (flen (fun i => qcltb 0 (W i j)) (seq 0 (n - 1 - j))) as F. rewrite seq_length in F. lia.
    + apply Qclt_le_weak, G.
    + rewrite Xf by exact Hj. eapply mack_within; eauto.
      intros i Hi'. apply filter_In in Hi' as [Hi' Hq]. apply in_seq in Hi'. apply qcltb_lt in Hq. split; [lia|exact Hq].
  - rewrite Hl. unfold xf. rewrite nltb_if by lia. reflexivity.
Qed.

(** Factors the user supplies. *)
Lemma c91_given gm m n C w cl ind sel tail sel' r (f : nat -> Qc) : regular m n C -> positive n C -> (0 < n)%nat -> clvi m = Ok cl ->
  base_cl gm (mkTri m "origin" "dev" w) cl ind sel tail = (sel', Ok r) ->
  c_ldfs r = map (fun j => (nth j (m_cols m) 0%Z, Fin (f j))) (seq 0 n) ->
  (forall j, (j < n)%nat -> 0 < f j) ->
  forall u rd c (C' : nat -> nat -> Qc) ult rsv tult trsv,
  rounding u rd -> (forall i j, (i + j < n)%nat -> roundings u c (C i j) (C' i j)) ->
  rd_ladder rd n C' f ult rsv tult trsv ->
  qn (n - 1 + c + 1 + n) * u < 1 ->
  rounded_as u n (fun i => (i + c + 1)%nat) (c_rows r) (c_total r) ult rsv tult trsv.
Proof.
  intros Rg P Hn Hcl B L Fp u rd c C' ult rsv tult trsv Rd Cells Run Small.
  assert (U0 : 0 <= u) by apply Rd. assert (U1 : u < 1) by apply Rd.
  destruct (c23_regular gm m n C w cl _ _ _ _ r f Rg ltac:(lia) Hcl B L) as (Rows & Tot & _).
  assert (K : forall i, ku c 0 0 i = (i + c + 1)%nat) by (intros i; unfold ku, kc; lia).
  assert (H : rounded_as u n (ku c 0 0) (c_rows r) (c_total r) ult rsv tult trsv).
  { apply (ladder_rows m n C f f 0 0 u rd c C' ult rsv tult trsv); auto.
    - intros j Hj. simpl. apply within_refl.
    - rewrite K. exact Small. }
  destruct H as (H1 & U & L' & H2 & H3 & H4). split.
  - intros i row Hr. destruct (H1 i row Hr) as (U' & L'' & A). exists U', L''. rewrite K in A. exact A.
  - exists U, L'. rewrite K in H3, H4. auto.
Qed.

(** Runs exist. *)
Lemma ladder_run rd n C f : (0 < n)%nat -> exists ult rsv tult trsv, rd_ladder rd n C f ult rsv tult trsv.
Proof.
  intros Hn.
  set (ult := fun i => rd (C i (n - 1 - i)%nat * rd_cldf rd f (n - 1 - i) i)).
  set (rsv := fun i => rd (ult i - C i (n - 1 - i)%nat)).
  destruct (summed_exists rd (map ult (seq 0 n))) as [tu Hu].
  { intros E. apply (f_equal (@List.length _)) in E. rewrite map_length, seq_length in E. simpl in E. lia. }
  destruct (summed_exists rd (map rsv (seq 0 n))) as [tr Hr].
  { intros E. apply (f_equal (@List.length _)) in E. rewrite map_length, seq_length in E. simpl in E. lia. }
  exists ult, rsv, tu, tr. split; [|auto]. intros i Hi. split; reflexivity.
Qed.
Lemma map_some {A B} (g : A -> B) l : l <> [] -> map g l <> [].
Proof. destruct l; [congruence|discriminate]. Qed.
Lemma c91_runs rd n C W al k (inc : nat -> nat -> bool) tail : (0 < n)%nat ->
  (forall j, (j < n - 1)%nat -> inc (n - 2 - j)%nat j = true) ->
  (forall j, (j < n - 1)%nat -> exists i, (i + j < n - 1)%nat /\ 0 < W i j) ->
  (exists f ult rsv tult trsv,
     (forall j, (j < n - 1)%nat -> rd_weighted rd C (window_rows k (n - 1 - j)) j (f j)) /\ f (n - 1)%nat = tail /\
     rd_ladder rd n C f ult rsv tult trsv) /\
  (exists f ult rsv tult trsv,
     (forall j, (j < n - 1)%nat -> rd_simple rd C (filter (fun i => inc i j) (window_rows k (n - 1 - j))) j (f j)) /\ f (n - 1)%nat = tail /\
     rd_ladder rd n C f ult rsv tult trsv) /\
  (exists f ult rsv tult trsv,
     (forall j, (j < n - 1)%nat -> rd_mack rd C W al (filter (fun i => qcltb 0 (W i j)) (seq 0 (n - 1 - j))) j (f j)) /\ f (n - 1)%nat = 1 /\
     rd_ladder rd n C f ult rsv tult trsv).
Proof.
  intros Hn Hi Hw.
  assert (Ne : forall j, (j < n - 1)%nat -> window_rows k (n - 1 - j) <> []).
  { intros j Hj Z. rewrite window_rows_of in Z. pose proof (rows_last k (n - 1 - j) ltac:(lia)) as Q. rewrite Z in Q. exact Q. }
  assert (G : forall (F : nat -> Qc -> Prop) t, (forall j, (j < n - 1)%nat -> exists y, F j y) ->
    exists f ult rsv tult trsv, (forall j, (j < n - 1)%nat -> F j (f j)) /\ f (n - 1)%nat = t /\ rd_ladder rd n C f ult rsv tult trsv).
  { intros F t HF. destruct (finite_choice F (n - 1) t HF) as (f & Hf & Hd).
    destruct (ladder_run rd n C f Hn) as (a & b & c & d & H). exists f, a, b, c, d. split; [exact Hf|]. split; [apply Hd; lia|exact H]. }
  split; [|split];
    [apply (G (fun j v => rd_weighted rd C (window_rows k (n - 1 - j)) j v))
    |apply (G (fun j v => rd_simple rd C (filter (fun i => inc i j) (window_rows k (n - 1 - j))) j v))
    |apply (G (fun j v => rd_mack rd C W al (filter (fun i => qcltb 0 (W i j)) (seq 0 (n - 1 - j))) j v))]; intros j Hj.
  - destruct (summed_exists rd (map (fun i => C i (S j)) (window_rows k (n - 1 - j)))) as [a Ha]; [apply map_some; auto|].
    destruct (summed_exists rd (map (fun i => C i j) (window_rows k (n - 1 - j)))) as [b Hb]; [apply map_some; auto|].
    exists (rd (a / b)), a, b. auto.
  - destruct (summed_exists rd (map (fun i => rd (rd_link rd C i j * 1)) (filter (fun i => inc i j) (window_rows k (n - 1 - j))))) as [a Ha].
    { apply map_some. intros Z. rewrite window_rows_of in Z. pose proof (rows_last k (n - 1 - j) ltac:(lia)) as Q.
      assert (Q' : In (n - 1 - j - 1)%nat (filter (fun i => inc i j) (rows_of k (n - 1 - j)))).
      { apply filter_In. split; [exact Q|]. replace (n - 1 - j - 1)%nat with (n - 2 - j)%nat by lia. auto. }
      rewrite Z in Q'. exact Q'. }
    exists (rd (a / qn (List.length (filter (fun i => inc i j) (window_rows k (n - 1 - j)))))), a. auto.
  - assert (Ne' : filter (fun i => qcltb 0 (W i j)) (seq 0 (n - 1 - j)) <> []).
    { intros Z. destruct (Hw j Hj) as (i0 & Hi0 & Hp). assert (Q : In i0 (filter (fun i => qcltb 0 (W i j)) (seq 0 (n - 1 - j)))).
      { apply filter_In. split; [apply in_seq; lia|]. apply qcltb_lt. exact Hp. }
      rewrite Z in Q. exact Q. }
    edestruct (summed_exists rd (map (fun i => rd (rd (rd_link rd C i j * W i j) * rd_pow rd (C i j) al)) (filter (fun i => qcltb 0 (W i j)) (seq 0 (n - 1 - j))))) as [a Ha]; [apply map_some; exact Ne'|].
    edestruct (summed_exists rd (map (fun i => rd (W i j * rd_pow rd (C i j) al)) (filter (fun i => qcltb 0 (W i j)) (seq 0 (n - 1 - j))))) as [b Hb]; [apply map_some; exact Ne'|].
    exists (rd (a / b)), a, b. auto.
Qed.

(** Medial averages: rounding decides which ratios equal the smallest. *)
Definition snap (u x : Qc) : Qc := if qcltb 1 x && qcleb x (1 + u) then 1 else x.
Lemma snap_rounding u : 0 < u -> u < 1 -> rounding u (snap u).
Proof.
  intros U0 U1. split; [apply Qclt_le_weak; exact U0|]. split; [exact U1|]. intros x. unfold snap.
  destruct (qcltb_spec 1 x) as [H1|H1]; [destruct (qcleb_spec x (1 + u)) as [H2|H2]|]; cbn [andb].
  - split; intros Hx; [split|exfalso; qlra].
    + assert (X : (1 + u) * (1 - u) <= 1) by (pose proof (qc_sq_nonneg u); replace ((1 + u) * (1 - u)) with (1 - u * u) by ring; qlra).
      eapply Qcle_trans; [|exact X]. apply Qcmult_le_compat_r; [exact H2|qlra].
    + assert (0 <= x * u) by (apply qc_mul_nonneg; qlra). replace (x * (1 + u)) with (x + x * u) by ring. qlra.
  - split; intros Hx; [|exfalso; qlra]. assert (0 <= x * u) by (apply qc_mul_nonneg; qlra).
    replace (x * (1 + u)) with (x + x * u) by ring. replace (x * (1 - u)) with (x - x * u) by ring. split; qlra.
  - split; intros Hx.
    + assert (0 <= x * u) by (apply qc_mul_nonneg; qlra).
      replace (x * (1 + u)) with (x + x * u) by ring. replace (x * (1 - u)) with (x - x * u) by ring. split; qlra.
    + assert (0 <= (- x) * u) by (apply qc_mul_nonneg; qlra).
      replace (x * (1 + u)) with (x - (- x) * u) by ring. replace (x * (1 - u)) with (x + (- x) * u) by ring. split; qlra.
Qed.
Lemma snap_mono u x y : x <= y -> snap u x <= snap u y.
Proof.
  intros H. unfold snap.
  destruct (qcltb_spec 1 x), (qcleb_spec x (1 + u)), (qcltb_spec 1 y), (qcleb_spec y (1 + u)); cbn [andb]; qlra.
Qed.
Lemma c91_medial u : 0 < u -> u < 1 ->
  exists rd (C : nat -> nat -> Qc) q q',
    rounding u rd /\ (forall x y, x <= y -> rd x <= rd y) /\ (forall i j, 0 < C i j) /\
    medial_avg (map (fun i => Fin (C i 1%nat / C i 0%nat)) (seq 0 4)) = Ok (Fin q) /\
    medial_avg (map (fun i => Fin (rd_link rd C i 0)) (seq 0 4)) = Ok (Fin q') /\
    q' - q > 1 / qz 2.
Proof.
  intros U0 U1. set (g := fun i => nth i [1; 1 + u; qz 3; qz 5] 1).
  assert (Q3 : qz 3 = 1 + 1 + 1) by (apply Qc_is_canon; reflexivity).
  assert (Q5 : qz 5 = 1 + 1 + 1 + 1 + 1) by (apply Qc_is_canon; reflexivity).
  exists (snap u), (fun i j => match j with O => 1 | _ => g i end), ((1 + u + qz 3) / qz 2), (qz 3).
  split; [apply snap_rounding; assumption|]. split; [intros; apply snap_mono; assumption|].
  assert (G : forall i, 0 < g i).
  { intros [|[|[|[|i]]]]; unfold g; simpl; rewrite ?Q3, ?Q5; try qlra. destruct i; qlra. }
  split; [intros i [|j]; [reflexivity|apply G]|].
  assert (D : forall x : Qc, x / 1 = x) by (intros; field; discriminate).
  assert (E1 : map (fun i => Fin (g i / 1)) (seq 0 4) = map Fin [1; 1 + u; qz 3; qz 5]).
  { cbn [seq map]. unfold g. cbn [nth]. rewrite !D. reflexivity. }
  assert (S3 : snap u (qz 3) = qz 3).
  { unfold snap. destruct (qcleb_spec (qz 3) (1 + u)) as [H|H]; [exfalso; rewrite Q3 in H; qlra|]. rewrite andb_false_r. reflexivity. }
  assert (S5 : snap u (qz 5) = qz 5).
  { unfold snap. destruct (qcleb_spec (qz 5) (1 + u)) as [H|H]; [exfalso; rewrite Q5 in H; qlra|]. rewrite andb_false_r. reflexivity. }
  assert (S1 : snap u 1 = 1).
  { unfold snap. destruct (qcltb_spec 1 1) as [H|H]; [|reflexivity]. destruct (qcleb_spec 1 (1 + u)); reflexivity. }
  assert (S2 : snap u (1 + u) = 1).
  { unfold snap. destruct (qcltb_spec 1 (1 + u)) as [H|H]; [|exfalso; qlra]. destruct (qcleb_spec (1 + u) (1 + u)) as [H2|H2]; [reflexivity|exfalso; qlra]. }
  assert (E2 : map (fun i => Fin (rd_link (snap u) (fun i j => match j with O => 1 | _ => g i end) i 0)) (seq 0 4) = map Fin [1; 1; qz 3; qz 5]).
  { unfold rd_link. cbn [seq map]. unfold g. cbn [nth]. rewrite !D, S1, S2, S3, S5. reflexivity. }
  assert (N1 : forall a b : Qc, a < b \/ b < a -> qceqb a b = false).
  { intros a b H. destruct (qceqb_spec a b) as [->|]; [|reflexivity]. exfalso. destruct H; qlra. }
  split; [|split].
  - rewrite E1, (medial_inner _ 1 (qz 5)); [|simpl; lia|simpl; auto|simpl; auto|discriminate|].
    2:{ intros y [<-|[<-|[<-|[<-|[]]]]]; rewrite ?Q3, ?Q5; split; qlra. }
    assert (I : inner 1 (qz 5) [1; 1 + u; qz 3; qz 5] = [1 + u; qz 3]).
    { unfold inner. cbn [filter]. rewrite !qceqb_refl.
      rewrite (N1 (1 + u) 1), (N1 (1 + u) (qz 5)), (N1 (qz 3) 1), (N1 (qz 3) (qz 5)), (N1 (qz 5) 1); [reflexivity|..];
        rewrite ?Q3, ?Q5; first [solve [left; qlra]|solve [right; qlra]]. }
    rewrite I. assert (Mq : mean [1 + u; qz 3] = (1 + u + qz 3) / qz 2).
    { unfold mean. cbn [qsum List.length]. apply (f_equal2 Qcdiv); [ring|apply Qc_is_canon; reflexivity]. }
    rewrite Mq. reflexivity.
  - rewrite E2. rewrite (medial_inner _ 1 (qz 5)); [|simpl; lia|simpl; auto|simpl; auto|discriminate|].
    2:{ intros y [<-|[<-|[<-|[<-|[]]]]]; rewrite ?Q3, ?Q5; split; qlra. }
    assert (I : inner 1 (qz 5) [1; 1; qz 3; qz 5] = [qz 3]) by reflexivity.
    rewrite I. assert (Mq : mean [qz 3] = qz 3) by (apply Qc_is_canon; reflexivity). rewrite Mq. reflexivity.
  - assert (Q2 : qz 2 = 1 + 1) by (apply Qc_is_canon; reflexivity). rewrite Q2, Q3.
    assert (X : (1 + u + (1 + 1 + 1)) / (1 + 1) < 1 + 1 + 1 - 1 / (1 + 1)).
    { replace (1 + 1 + 1 - 1 / (1 + 1)) with ((1 + 1 + 1 + 1 + 1) / (1 + 1)) by (field; discriminate).
      unfold Qcdiv. apply Qcmult_lt_compat_r; [reflexivity|qlra]. }
    set (z := (1 + u + (1 + 1 + 1)) / (1 + 1)) in *. set (h := 1 / (1 + 1)) in *. clearbody z h. clear -X. qlra.
Qed.
