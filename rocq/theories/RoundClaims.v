(** Proofs about the rounded chain ladder (C79). *)

From Coq Require Import String QArith Qcanon Qround ZArith List Bool Lia Lqa Permutation.
From Verif Require Import Val Frame Triangle A2A Base QcLib Spec SpecRound Round BaseClaims QuantFacts.
Import ListNotations.
Open Scope list_scope.
Open Scope Qc_scope.

Fixpoint pw (v : Qc) (k : nat) : Qc := match k with O => 1 | S k' => v * pw v k' end.
Lemma pw_add v a b : pw v (a + b) = pw v a * pw v b.
Proof. induction a as [|a IH]; simpl; [ring|]. rewrite IH. ring. Qed.

Ltac nn := apply qc_mul_nonneg; first [assumption|apply Qclt_le_weak; assumption].
Lemma shrink a p : 0 <= a -> p <= 1 -> a * p <= a.
Proof. intros Ha Hp. rewrite <- (Qcmult_1_r a) at 2. rewrite !(Qcmult_comm a). apply Qcmult_le_compat_r; assumption. Qed.
Section W.
  Variable u : Qc.
  Hypothesis U0 : 0 <= u.
  Hypothesis U1 : u < 1.
  Let v := 1 - u.
  Lemma v_pos : 0 < v. Proof. unfold v. qlra. Qed.
  Lemma v_le1 : v <= 1. Proof. unfold v. qlra. Qed.
  Lemma pw_pos k : 0 < pw v k.
  Proof. induction k as [|k IH]; simpl; [reflexivity|]. pose proof v_pos. apply qc_mul_pos; assumption. Qed.
  Lemma pw_le1 k : pw v k <= 1.
  Proof.
    induction k as [|k IH]; simpl; [apply Qcle_refl|]. pose proof v_pos. pose proof v_le1. pose proof (pw_pos k). qnra.
  Qed.
  Lemma bernoulli k : 1 - qn k * u <= pw v k.
  Proof.
    induction k as [|k IH]; simpl.
    - change (qn 0) with 0. qlra.
    - assert (E : qn (S k) = qn k + 1) by (rewrite qn_S; ring). rewrite E.
      assert (Hk : 0 <= qn k) by apply qn_nonneg. pose proof v_pos. unfold v in *. pose proof (Qcmult_le_compat_r _ _ (1 - u) IH (Qclt_le_weak _ _ H)). qnra.
  Qed.

  (** At most [k] roundings apart. *)
  Definition within (k : nat) (x y : Qc) : Prop := x * pw v k <= y /\ y * pw v k <= x.
  Lemma within_refl x : within 0 x x.
  Proof. split; simpl; qlra. Qed.
  Lemma within_nonneg k x y : 0 <= x -> within k x y -> 0 <= y.
  Proof. intros Hx [H _]. pose proof (pw_pos k). assert (0 <= x * pw v k) by nn. qlra. Qed.
  Lemma within_pos k x y : 0 < x -> within k x y -> 0 < y.
  Proof. intros Hx [H _]. pose proof (pw_pos k). assert (0 < x * pw v k) by (apply qc_mul_pos; assumption). qlra. Qed.
  Lemma within_mono k l x y : (k <= l)%nat -> 0 <= x -> within k x y -> within l x y.
  Proof.
    intros Hl Hx H. assert (Hy : 0 <= y) by (eapply within_nonneg; [|exact H]; assumption). destruct H as [H1 H2].
    replace l with (k + (l - k))%nat by lia. unfold within. rewrite pw_add.
    pose proof (pw_pos k). pose proof (pw_le1 (l - k)). pose proof (pw_pos (l - k)).
    assert (0 <= x * pw v k) by nn. assert (0 <= y * pw v k) by nn.
    rewrite !Qcmult_assoc. split; (eapply Qcle_trans; [apply shrink; assumption|assumption]).
  Qed.
  Lemma within_add k x y a b : within k x y -> within k a b -> within k (x + a) (y + b).
  Proof. intros [H1 H2] [H3 H4]. split; rewrite Qcmult_plus_distr_l; qlra. Qed.
  Lemma within_mul k l x y a b : 0 <= x -> 0 <= a -> within k x y -> within l a b -> within (k + l) (x * a) (y * b).
  Proof.
    intros Hx Ha H H'. assert (Hy : 0 <= y) by (eapply within_nonneg; [|exact H]; assumption). assert (Hb : 0 <= b) by (eapply within_nonneg; [|exact H']; assumption).
    destruct H as [H1 H2], H' as [H3 H4]. unfold within. rewrite pw_add. pose proof (pw_pos k). pose proof (pw_pos l).
    assert (0 <= x * pw v k) by nn. assert (0 <= a * pw v l) by nn.
    assert (0 <= y * pw v k) by nn. assert (0 <= b * pw v l) by nn.
    replace (x * a * (pw v k * pw v l)) with ((x * pw v k) * (a * pw v l)) by ring.
    replace (y * b * (pw v k * pw v l)) with ((y * pw v k) * (b * pw v l)) by ring.
    split.
    - apply Qcle_trans with (y * (a * pw v l)); [apply Qcmult_le_compat_r; assumption|].
      rewrite (Qcmult_comm y), (Qcmult_comm y). apply Qcmult_le_compat_r; assumption.
    - apply Qcle_trans with (x * (b * pw v l)); [apply Qcmult_le_compat_r; assumption|].
      rewrite (Qcmult_comm x), (Qcmult_comm x). apply Qcmult_le_compat_r; assumption.
  Qed.
  Lemma within_div k l x y a b : 0 <= x -> 0 < a -> within k x y -> within l a b -> within (k + l) (x / a) (y / b).
  Proof.
    intros Hx Ha H H'. assert (Hy : 0 <= y) by (eapply within_nonneg; [|exact H]; assumption). assert (Hb : 0 < b) by (eapply within_pos; [|exact H']; assumption).
    destruct H as [H1 H2], H' as [H3 H4]. unfold within. rewrite pw_add. pose proof (pw_pos k). pose proof (pw_pos l).
    assert (Na : a <> 0) by (apply qc_pos_neq; assumption). assert (Nb : b <> 0) by (apply qc_pos_neq; assumption).
    split.
    - apply qc_le_div; [assumption|]. replace (x / a * (pw v k * pw v l) * b) with ((x * pw v k) * (b * pw v l) / a) by (field; assumption).
      apply qc_div_le; [assumption|]. assert (0 <= b * pw v l) by nn.
      apply Qcle_trans with (y * (b * pw v l)); [apply Qcmult_le_compat_r; assumption|].
      rewrite (Qcmult_comm y), (Qcmult_comm y). apply Qcmult_le_compat_r; assumption.
    - apply qc_le_div; [assumption|]. replace (y / b * (pw v k * pw v l) * a) with ((y * pw v k) * (a * pw v l) / b) by (field; assumption).
      apply qc_div_le; [assumption|]. assert (0 <= a * pw v l) by nn.
      apply Qcle_trans with (x * (a * pw v l)); [apply Qcmult_le_compat_r; assumption|].
      rewrite (Qcmult_comm x), (Qcmult_comm x). apply Qcmult_le_compat_r; assumption.
  Qed.

  (** A difference of two nonnegative numbers, each known up to [k] roundings. *)
  Definition diffs (k : nat) (x y z : Qc) : Prop :=
    exists p q, z = p - q /\ within k x p /\ within k y q.
  Lemma diffs_mono k l x y z : (k <= l)%nat -> 0 <= x -> 0 <= y -> diffs k x y z -> diffs l x y z.
  Proof. intros Hl Hx Hy (p & q & E & H1 & H2). exists p, q. split; [exact E|]. split; eapply within_mono; eauto. Qed.
  Lemma diffs_add k x y z x' y' z' : diffs k x y z -> diffs k x' y' z' -> diffs k (x + x') (y + y') (z + z').
  Proof.
    intros (p & q & -> & H1 & H2) (p' & q' & -> & H3 & H4). exists (p + p'), (q + q').
    split; [ring|]. split; apply within_add; assumption.
  Qed.
  Lemma gamma_bound k x y z : 0 <= x -> 0 <= y -> qn k * u < 1 -> diffs k x y z -> close (gamma u k * (x + y)) z (x - y).
  Proof.
    intros Hx Hy Hk (p & q & -> & [P1 P2] & [Q1 Q2]).
    assert (Hp : 0 <= p) by (eapply within_nonneg; [exact Hx|split; eassumption]).
    assert (Hq : 0 <= q) by (eapply within_nonneg; [exact Hy|split; eassumption]).
    pose proof (bernoulli k) as B. set (e := qn k * u) in *. assert (He : 0 <= e) by (unfold e; apply qc_mul_nonneg; [apply qn_nonneg|assumption]).
    assert (G : forall s t, 0 <= s -> 0 <= t -> s * pw v k <= t -> t * pw v k <= s -> t - s <= gamma u k * s /\ s - t <= gamma u k * s).
    { intros s t Hs Ht H1 H2. unfold gamma. fold e.
      assert (D : 0 < 1 - e) by qlra.
      assert (X1 : s * (1 - e) <= t) by qnra. assert (X2 : t * (1 - e) <= s) by qnra.
      replace (e / (1 - e) * s) with (e * s / (1 - e)) by (field; apply qc_pos_neq; assumption).
      split; apply qc_le_div; try assumption; qnra. }
    destruct (G x p Hx Hp P1 P2) as [A1 A2]. destruct (G y q Hy Hq Q1 Q2) as [B1 B2].
    unfold close. rewrite Qcmult_plus_distr_r. split; qlra.
  Qed.
  Lemma within_diffs k x z : within k x z -> diffs k x 0 z.
  Proof. intros H. exists z, 0. split; [ring|]. split; [exact H|]. split; qlra. Qed.
  Lemma within_close k x z : 0 <= x -> qn k * u < 1 -> within k x z -> close (gamma u k * x) z x.
  Proof.
    intros Hx Hk H. pose proof (gamma_bound k x 0 z Hx (Qcle_refl 0) Hk (within_diffs k x z H)) as G.
    replace (x + 0) with x in G by ring. replace (x - 0) with x in G by ring. exact G.
  Qed.

  Variable rd : Qc -> Qc.
  Hypothesis R : rounding u rd.
  Lemma rd_pos x : 0 <= x -> within 1 x (rd x).
  Proof.
    intros Hx. destruct R as (_ & _ & H). destruct (H x) as [H1 _]. destruct (H1 Hx) as [A B].
    unfold within. simpl. fold v. split; [unfold v in *; qlra|]. unfold v. qnra.
  Qed.
  Lemma within_rd k x y : 0 <= x -> within k x y -> within (S k) x (rd y).
  Proof.
    intros Hx H. assert (Hy : 0 <= y) by (eapply within_nonneg; [|exact H]; assumption). destruct (rd_pos y Hy) as [A B]. destruct H as [H1 H2].
    simpl in A, B. replace (v * 1) with v in * by ring. pose proof (pw_pos k). pose proof v_pos.
    unfold within. simpl. split.
    - apply Qcle_trans with (y * v); [|exact A].
      replace (x * (v * pw v k)) with (x * pw v k * v) by ring. apply Qcmult_le_compat_r; [assumption|apply Qclt_le_weak; assumption].
    - apply Qcle_trans with (y * pw v k); [|exact H2].
      replace (rd y * (v * pw v k)) with (rd y * v * pw v k) by ring. apply Qcmult_le_compat_r; [assumption|apply Qclt_le_weak; assumption].
  Qed.
  (** Rounding multiplies by a factor one rounding away from 1. *)
  Lemma rd_factor_of z : exists t, rd z = z * t /\ within 1 1 t.
  Proof.
    destruct (Qc_eq_dec z 0) as [->|Nz].
    - exists 1. split; [|split; simpl; unfold v; qlra].
      destruct R as (_ & _ & H). destruct (H 0) as [H1 _]. destruct (H1 (Qcle_refl 0)) as [A B].
      apply Qcle_antisym; qlra.
    - exists (rd z / z). split; [field; exact Nz|].
      destruct (Qclt_le_dec 0 z) as [Hz|Hz].
      + destruct (rd_pos z (Qclt_le_weak _ _ Hz)) as [A B]. simpl in A, B. unfold within. simpl.
        replace (v * 1) with v in * by ring. split.
        * apply qc_le_div; [assumption|]. qlra.
        * replace (rd z / z * v) with (rd z * v / z) by (field; exact Nz). apply qc_div_le; [assumption|]. qlra.
      + assert (Hz' : 0 < - z).
        { destruct (Qcle_lt_or_eq _ _ Hz) as [H|H]; [qlra|congruence]. }
        destruct R as (_ & _ & H). destruct (H z) as [_ H1]. destruct (H1 Hz) as [A B].
        unfold within. simpl. replace (v * 1) with v by ring.
        replace (rd z / z) with (- rd z / - z) by (field; split; [exact Nz|intros E; apply Nz; qlra || (apply Qcle_antisym; qlra)]).
        split.
        * apply qc_le_div; [assumption|]. unfold v. qlra.
        * replace (- rd z / - z * v) with (- rd z * v / - z) by (field; intros E; apply Nz; apply Qcle_antisym; qlra).
          apply qc_div_le; [assumption|]. unfold v. qnra.
  Qed.
  Lemma diffs_rd k x y z : 0 <= x -> 0 <= y -> diffs k x y z -> diffs (S k) x y (rd z).
  Proof.
    intros Hx Hy (p & q & -> & H1 & H2). destruct (rd_factor_of (p - q)) as (t & E & Ht).
    exists (p * t), (q * t). split; [rewrite E; ring|].
    replace (S k) with (k + 1)%nat by lia.
    split; [rewrite <- (Qcmult_1_r x)|rewrite <- (Qcmult_1_r y)]; apply within_mul; auto; discriminate.
  Qed.

  (** Sums in any order. *)
  Lemma summed_ne l y : summed rd l y -> l <> [].
  Proof.
    induction 1 as [x|a b x y H1 IH1 H2 IH2|a b x P H IH]; [discriminate| |].
    - intros E. apply app_eq_nil in E. tauto.
    - intros ->. apply IH. symmetry in P. apply Permutation_nil in P. exact P.
  Qed.
  Lemma summed_diffs k l z : summed rd l z -> forall (ps : list (Qc * Qc * Qc)),
    l = map snd ps ->
    (forall p, In p ps -> 0 <= fst (fst p) /\ 0 <= snd (fst p) /\ diffs k (fst (fst p)) (snd (fst p)) (snd p)) ->
    diffs (k + (List.length l - 1)) (qsum (map (fun p => fst (fst p)) ps)) (qsum (map (fun p => snd (fst p)) ps)) z.
  Proof.
    induction 1 as [x|a b x y H1 IH1 H2 IH2|a b x P H IH]; intros ps El Hps.
    - destruct ps as [|[[s t] w] [|? ?]]; try discriminate El. injection El as <-. simpl.
      destruct (Hps (s, t, x)) as (A & B & D); [left; reflexivity|]. simpl in A, B, D.
      replace (s + 0) with s by ring. replace (t + 0) with t by ring. replace (k + 0)%nat with k by lia. exact D.
    - symmetry in El. apply map_eq_app in El as (qa & qb & -> & <- & <-).
      assert (Ha : forall p, In p qa -> 0 <= fst (fst p) /\ 0 <= snd (fst p) /\ diffs k (fst (fst p)) (snd (fst p)) (snd p))
        by (intros; apply Hps; apply in_or_app; auto).
      assert (Hb : forall p, In p qb -> 0 <= fst (fst p) /\ 0 <= snd (fst p) /\ diffs k (fst (fst p)) (snd (fst p)) (snd p))
        by (intros; apply Hps; apply in_or_app; auto).
      specialize (IH1 qa eq_refl Ha). specialize (IH2 qb eq_refl Hb).
      apply summed_ne in H1. apply summed_ne in H2.
      assert (L1 : (0 < List.length (map snd qa))%nat) by (destruct (map snd qa); [congruence|simpl; lia]).
      assert (L2 : (0 < List.length (map snd qb))%nat) by (destruct (map snd qb); [congruence|simpl; lia]).
      assert (S0 : forall l, (forall p, In p l -> 0 <= fst (fst p) /\ 0 <= snd (fst p) /\ diffs k (fst (fst p)) (snd (fst p)) (snd p)) ->
                 0 <= qsum (map (fun p => fst (fst p)) l) /\ 0 <= qsum (map (fun p => snd (fst p)) l)).
      { intros l Hl. split; apply qsum_nonneg; intros s Hs; apply in_map_iff in Hs as (p & <- & Hp); apply (Hl p Hp). }
      destruct (S0 qa Ha) as [Sa Sa']. destruct (S0 qb Hb) as [Sb Sb'].
      rewrite !map_app, !qsum_app, !app_length.
      replace (k + (List.length (map snd qa) + List.length (map snd qb) - 1))%nat
        with (S (k + (List.length (map snd qa) + List.length (map snd qb) - 2)))%nat by lia.
      apply diffs_rd; [qlra|qlra|].
      apply diffs_add; (eapply diffs_mono; [|assumption|assumption|eassumption]; lia).
    - subst b. apply Permutation_map_inv in P as (qs & -> & P).
      assert (D : diffs (k + (List.length (map snd qs) - 1)) (qsum (map (fun p => fst (fst p)) qs)) (qsum (map (fun p => snd (fst p)) qs)) x).
      { apply IH; [reflexivity|]. intros p Hp. apply Hps. eapply Permutation_in; [symmetry; exact P|exact Hp]. }
      rewrite (qsum_perm _ _ (Permutation_map (fun p => fst (fst p)) P)), (qsum_perm _ _ (Permutation_map (fun p => snd (fst p)) P)).
      rewrite map_length in *. rewrite (Permutation_length P). exact D.
  Qed.
  Lemma within_of_diffs k x z : 0 <= x -> diffs k x 0 z -> within k x z.
  Proof.
    intros Hx (p & q & -> & H1 & H2 & H3). pose proof (pw_pos k).
    assert (q = 0).
    { apply Qcle_antisym; [|qlra]. destruct (Qclt_le_dec 0 q) as [Hq|Hq]; [|exact Hq].
      exfalso. assert (0 < q * pw v k) by (apply qc_mul_pos; assumption). qlra. }
    subst q. replace (p - 0) with p by ring. exact H1.
  Qed.
  Lemma summed_within k n (x y : nat -> Qc) z : summed rd (map y (seq 0 n)) z ->
    (forall i, (i < n)%nat -> 0 <= x i /\ within k (x i) (y i)) ->
    within (k + (n - 1)) (sumf 0 n x) z.
  Proof.
    intros H Hxy. apply within_of_diffs; [apply sumf_nonneg; intros i Hi; apply Hxy; lia|].
    pose proof (summed_diffs k _ _ H (map (fun i => (x i, 0, y i)) (seq 0 n))) as D.
    rewrite !map_map in D. cbn [fst snd] in D. rewrite map_length, seq_length in D.
    assert (Z : qsum (map (fun _ : nat => 0) (seq 0 n)) = 0) by (rewrite qsum_map_const; ring).
    rewrite Z in D. apply D; [reflexivity|].
    intros p Hp. apply in_map_iff in Hp as (i & <- & Hi). apply in_seq in Hi. cbn [fst snd].
    destruct (Hxy i) as [A B]; [lia|]. split; [exact A|]. split; [apply Qcle_refl|apply within_diffs; exact B].
  Qed.

  (** ** The chain ladder *)
  Section Chain.
    Variables (n c : nat) (C C' : nat -> nat -> Qc) (tail : Qc).
    Hypothesis Pos : forall i j, (i + j < n)%nat -> 0 < C i j.
    Hypothesis Cells : forall i j, (i + j < n)%nat -> within c (C i j) (C' i j).
    Hypothesis Ht : 0 < tail.
    Definition fac (j : nat) : Qc :=
      if (S j <? n)%nat then sumf 0 (n - 1 - j) (fun i => C i (S j)) / sumf 0 (n - 1 - j) (fun i => C i j) else tail.
    Lemma fac_pos j : 0 < fac j.
    Proof.
      unfold fac. destruct (Nat.ltb_spec (S j) n); [|exact Ht].
      apply qc_div_pos; apply sumf_pos; try lia; intros i Hi; apply Pos; lia.
    Qed.
    Lemma factor_within j f : (S j < n)%nat -> rd_factor rd n C' j f ->
      within (2 * (n - 2 - j) + 1 + 2 * c) (fac j) f.
    Proof.
      intros Hj (a & b & Ha & Hb & ->). unfold fac. destruct (Nat.ltb_spec (S j) n); [|lia].
      apply (summed_within c (n - 1 - j) (fun i => C i (S j))) in Ha.
      2:{ intros i Hi. split; [apply Qclt_le_weak, Pos; lia|apply Cells; lia]. }
      apply (summed_within c (n - 1 - j) (fun i => C i j)) in Hb.
      2:{ intros i Hi. split; [apply Qclt_le_weak, Pos; lia|apply Cells; lia]. }
      replace (2 * (n - 2 - j) + 1 + 2 * c)%nat with (S ((c + (n - 1 - j - 1)) + (c + (n - 1 - j - 1))))%nat by lia.
      assert (0 < sumf 0 (n - 1 - j) (fun i => C i (S j))) by (apply sumf_pos; [lia|intros i Hi; apply Pos; lia]).
      assert (0 < sumf 0 (n - 1 - j) (fun i => C i j)) by (apply sumf_pos; [lia|intros i Hi; apply Pos; lia]).
      apply within_rd; [apply Qclt_le_weak, qc_div_pos; assumption|].
      apply within_div; auto. apply Qclt_le_weak; assumption.
    Qed.
    Variable f : nat -> Qc.
    Hypothesis Hf : forall j, (S j < n)%nat -> rd_factor rd n C' j (f j).
    Hypothesis Hl : f (n - 1)%nat = tail.
    Lemma cldf_within i : (i < n)%nat ->
      within (i * i + i + 2 * c * i) (prodf (n - 1 - i) (S i) fac) (rd_cldf rd f (n - 1 - i) i).
    Proof.
      induction i as [|i IH]; intros Hi.
      - simpl. replace (n - 1 - 0)%nat with (n - 1)%nat by lia. rewrite Hl. unfold prodf. simpl.
        assert (E : fac (n - 1) = tail). { unfold fac. destruct (Nat.ltb_spec (S (n - 1)) n); [lia|reflexivity]. }
        rewrite E. replace (tail * 1) with tail by ring. replace (c + (c + 0))%nat with (2 * c)%nat by lia.
        replace (2 * c * 0)%nat with 0%nat by lia. apply within_refl.
      - specialize (IH ltac:(lia)). rewrite prodf_Sl.
        replace (n - 1 - i)%nat with (S (n - 1 - S i)) in IH by lia.
        assert (Fw : within (2 * i + 1 + 2 * c) (fac (n - 1 - S i)) (f (n - 1 - S i)%nat)).
        { replace (2 * i + 1 + 2 * c)%nat with (2 * (n - 2 - (n - 1 - S i)) + 1 + 2 * c)%nat by lia.
          apply factor_within; [lia|]. apply Hf. lia. }
        replace (S i * S i + S i + 2 * c * S i)%nat with (S ((i * i + i + 2 * c * i) + (2 * i + 1 + 2 * c)))%nat by lia.
        cbn [rd_cldf]. rewrite (Qcmult_comm (fac _)).
        assert (P1 : 0 < prodf (S (n - 1 - S i)) (S i) fac) by (apply prodf_pos; intros; apply fac_pos).
        pose proof (fac_pos (n - 1 - S i)) as P2.
        apply within_rd; [apply Qclt_le_weak, qc_mul_pos; assumption|].
        apply within_mul; try (apply Qclt_le_weak; assumption); assumption.
    Qed.
    Definition ult i := C i (n - 1 - i)%nat * prodf (n - 1 - i) (S i) fac.
    Lemma ult_pos i : (i < n)%nat -> 0 < ult i.
    Proof. intros Hi. apply qc_mul_pos; [apply Pos; lia|apply prodf_pos; intros; apply fac_pos]. Qed.
    Lemma ult_within i : (i < n)%nat ->
      within (i * i + i + 1 + c * (2 * i + 1)) (ult i) (rd (C' i (n - 1 - i)%nat * rd_cldf rd f (n - 1 - i) i)).
    Proof.
      intros Hi. replace (i * i + i + 1 + c * (2 * i + 1))%nat with (S (c + (i * i + i + 2 * c * i)))%nat by lia.
      assert (0 < C i (n - 1 - i)%nat) by (apply Pos; lia).
      assert (0 < prodf (n - 1 - i) (S i) fac) by (apply prodf_pos; intros; apply fac_pos).
      apply within_rd; [apply Qclt_le_weak, ult_pos; assumption|].
      apply within_mul; try (apply Qclt_le_weak; assumption); [apply Cells; lia|apply cldf_within; exact Hi].
    Qed.
    Lemma rsv_diffs i u' : (i < n)%nat -> within (i * i + i + 1 + c * (2 * i + 1)) (ult i) u' ->
      diffs (i * i + i + 2 + c * (2 * i + 1)) (ult i) (C i (n - 1 - i)%nat) (rd (u' - C' i (n - 1 - i)%nat)).
    Proof.
      intros Hi Hu. replace (i * i + i + 2 + c * (2 * i + 1))%nat with (S (i * i + i + 1 + c * (2 * i + 1)))%nat by lia.
      assert (0 < C i (n - 1 - i)%nat) by (apply Pos; lia).
      apply diffs_rd; [apply Qclt_le_weak, ult_pos; assumption|apply Qclt_le_weak; assumption|].
      exists u', (C' i (n - 1 - i)%nat). split; [reflexivity|]. split; [exact Hu|].
      eapply within_mono; [|apply Qclt_le_weak; assumption|apply Cells; lia]. nia.
    Qed.
  End Chain.
End W.

Lemma prodf_fac n (C : nat -> nat -> Qc) tail a l g : (forall j, g j = fac n C tail j) -> prodf a l (fac n C tail) = prodf a l g.
Proof. intros H. apply prodf_ext. intros. symmetry. apply H. Qed.

Lemma c79 gm m n C w cl tail : regular m n C -> positive n C -> (2 < n)%nat -> tail_fits (m_cols m) -> clvi m = Ok cl ->
  0 < tail ->
  exists r, base_cl gm (mkTri m "origin" "dev" w) cl (a2aind_init m) (SelLabel "all-weighted") (Fin tail)
              = (SelLabel "all-weighted", Ok r) /\
  forall u rd c (C' : nat -> nat -> Qc) ult rsv tult trsv,
  rounding u rd -> (forall i j, (i + j < n)%nat -> roundings u c (C i j) (C' i j)) ->
  rd_base_cl rd n C' tail ult rsv tult trsv ->
  qn (n * n + 1 + c * (2 * n - 1)) * u < 1 ->
  (forall i row, nth_error (c_rows r) i = Some row -> exists U L,
     s_latest row = Fin L /\ s_ultimate row = Fin U /\ s_reserve row = Fin (U - L) /\
     close (gamma u (i * i + i + 1 + c * (2 * i + 1)) * U) (ult i) U /\
     close (gamma u (i * i + i + 2 + c * (2 * i + 1)) * (U + L)) (rsv i) (U - L)) /\
  exists U L, c_total r = (Fin L, Fin U, Fin (U - L)) /\
     close (gamma u (n * n + c * (2 * n - 1)) * U) tult U /\
     close (gamma u (n * n + 1 + c * (2 * n - 1)) * (U + L)) trsv (U - L).
Proof.
  intros Rg P Hn Ev Hcl Ht.
  destruct (c23_all_weighted gm m n C w cl tail Rg P Hn Ev Hcl) as (r & B & L). exists r. split; [exact B|].
  intros u rd c C' ult' rsv tult trsv Rd Cells (f & Hf & Hl & Hi & Hu & Hr) Small.
  assert (U0 : 0 <= u) by apply Rd. assert (U1 : u < 1) by apply Rd.
  set (g := fac n C tail).
  assert (L' : c_ldfs r = map (fun j => (nth j (m_cols m) 0%Z, Fin (g j))) (seq 0 n)) by exact L.
  assert (Sm : forall k, (k <= n * n + 1 + c * (2 * n - 1))%nat -> qn k * u < 1).
  { intros k Hk. eapply Qcle_lt_trans; [|exact Small]. apply Qcmult_le_compat_r; [apply qn_le; exact Hk|exact U0]. }
  assert (UW : forall i, (i < n)%nat -> within u (i * i + i + 1 + c * (2 * i + 1)) (RoundClaims.ult n C tail i) (ult' i)).
  { intros i Hin. destruct (Hi i Hin) as [-> _]. eapply ult_within; eauto. }
  assert (RD : forall i, (i < n)%nat -> diffs u (i * i + i + 2 + c * (2 * i + 1)) (RoundClaims.ult n C tail i) (C i (n - 1 - i)%nat) (rsv i)).
  { intros i Hin. destruct (Hi i Hin) as [_ ->]. eapply rsv_diffs; eauto. }
  assert (UP : forall i, (i < n)%nat -> 0 < RoundClaims.ult n C tail i) by (intros; apply ult_pos; assumption).
  assert (LP : forall i, (i < n)%nat -> 0 < C i (n - 1 - i)%nat) by (intros; apply P; lia).
  destruct (c23_regular gm m n C w cl _ _ _ _ r g Rg ltac:(lia) Hcl B L') as (Rows & Tot & _).
  split.
  - intros i row Hrow. rewrite Rows in Hrow. assert (Hin : (i < n)%nat).
    { assert (N : nth_error (map (fun i => let k := (n - 1 - i)%nat in let cldf := prodf k (n - k) g in
          mkRow (nth i (m_idx m) 0%Z) (nth k (m_cols m) 0%Z) (Fin cldf) (vdiv (Fin 1%Qc) (Fin cldf))
            (Fin (C i k)) (Fin (C i k * cldf)%Qc) (Fin (C i k * cldf - C i k)%Qc)) (seq 0 n)) i <> None) by (rewrite Hrow; discriminate).
      apply nth_error_Some in N. rewrite map_length, seq_length in N. exact N. }
    erewrite map_nth_error in Hrow; [|rewrite nth_error_nth' with (d := 0%nat) by (rewrite seq_length; exact Hin); rewrite seq_nth by exact Hin; reflexivity].
    injection Hrow as <-. cbn [s_latest s_ultimate s_reserve].
    assert (E : C i (n - 1 - i)%nat * prodf (n - 1 - i) (n - (n - 1 - i)) g = RoundClaims.ult n C tail i).
    { unfold RoundClaims.ult. replace (n - (n - 1 - i))%nat with (S i) by lia. reflexivity. }
    simpl (0 + i)%nat. rewrite E. exists (RoundClaims.ult n C tail i), (C i (n - 1 - i)%nat).
    do 3 (split; [reflexivity|]). split.
    + apply within_close; auto; [apply Qclt_le_weak, UP; exact Hin|]. apply Sm. nia.
    + apply gamma_bound; auto; [apply Qclt_le_weak, UP; exact Hin|apply Qclt_le_weak, LP; exact Hin|]. apply Sm. nia.
  - assert (ES : sumf 0 n (fun i => C i (n - 1 - i)%nat * prodf (n - 1 - i) (n - (n - 1 - i)) g) = sumf 0 n (RoundClaims.ult n C tail)).
    { apply sumf_ext. intros i Hin. unfold RoundClaims.ult. replace (n - (n - 1 - i))%nat with (S i) by lia. reflexivity. }
    exists (sumf 0 n (RoundClaims.ult n C tail)), (sumf 0 n (fun i => C i (n - 1 - i)%nat)).
    split; [rewrite Tot, sumf_sub, ES; reflexivity|].
    assert (SU : 0 <= sumf 0 n (RoundClaims.ult n C tail)) by (apply sumf_nonneg; intros; apply Qclt_le_weak, UP; lia).
    assert (SL : 0 <= sumf 0 n (fun i => C i (n - 1 - i)%nat)) by (apply sumf_nonneg; intros; apply Qclt_le_weak, LP; lia).
    split.
    + apply within_close; auto; [apply Sm; lia|].
      replace (n * n + c * (2 * n - 1))%nat with (((n - 1) * (n - 1) + (n - 1) + 1 + c * (2 * (n - 1) + 1)) + (n - 1))%nat by nia.
      eapply summed_within; eauto. intros i Hin. split; [apply Qclt_le_weak, UP; exact Hin|].
      eapply within_mono; [exact U0|exact U1| |apply Qclt_le_weak, UP; exact Hin|apply UW; exact Hin]. nia.
    + apply gamma_bound; auto.
      replace (n * n + 1 + c * (2 * n - 1))%nat with (((n - 1) * (n - 1) + (n - 1) + 2 + c * (2 * (n - 1) + 1)) + (n - 1))%nat by nia.
      pose proof (summed_diffs u U0 U1 rd Rd ((n - 1) * (n - 1) + (n - 1) + 2 + c * (2 * (n - 1) + 1)) _ _ Hr
        (map (fun i => (RoundClaims.ult n C tail i, C i (n - 1 - i)%nat, rsv i)) (seq 0 n))) as D.
      rewrite !map_map in D. cbn [fst snd] in D. rewrite map_length, seq_length in D. apply D; [reflexivity|].
      intros p Hp. apply in_map_iff in Hp as (i & <- & Hin). apply in_seq in Hin. cbn [fst snd].
      split; [apply Qclt_le_weak, UP; lia|]. split; [apply Qclt_le_weak, LP; lia|].
      eapply diffs_mono; [exact U0|exact U1| |apply Qclt_le_weak, UP; lia|apply Qclt_le_weak, LP; lia|apply RD; lia]. nia.
Qed.

(** Cells accumulated from increments. *)
Lemma c79_cells u rd (x : nat -> Qc) j : rounding u rd -> (forall k, (k <= j)%nat -> 0 <= x k) ->
  roundings u j (sumf 0 (S j) x) (rd_cum rd x j).
Proof.
  intros Rd. assert (U0 : 0 <= u) by apply Rd. assert (U1 : u < 1) by apply Rd.
  induction j as [|j IH]; intros Hx.
  - unfold roundings, sumf. simpl. split; qlra.
  - rewrite sumf_Sr. cbn [rd_cum]. assert (S0 : 0 <= sumf 0 (S j) x) by (apply sumf_nonneg; intros; apply Hx; lia).
    assert (X0 : 0 <= x (S j)) by (apply Hx; lia).
    apply (within_rd u U0 U1 rd Rd j); [simpl (0 + S j)%nat; qlra|].
    apply within_add; [apply IH; intros; apply Hx; lia|].
    apply (within_mono u U0 U1 0 j); [lia|exact X0|apply within_refl].
Qed.

(** A run exists for every rounding. *)
Lemma summed_exists rd l : l <> [] -> exists y, summed rd l y.
Proof.
  induction l as [|a l IH]; [congruence|]. intros _. destruct l as [|b l]; [exists a; constructor|].
  destruct IH as [y Hy]; [discriminate|]. exists (rd (a + y)). apply (summed_add rd [a] (b :: l)); [constructor|exact Hy].
Qed.
Lemma finite_choice {A} (P : nat -> A -> Prop) n (d : A) : (forall j, (j < n)%nat -> exists y, P j y) ->
  exists f, (forall j, (j < n)%nat -> P j (f j)) /\ (forall j, (n <= j)%nat -> f j = d).
Proof.
  induction n as [|n IH]; intros H; [exists (fun _ => d); split; [intros; lia|auto]|].
  destruct IH as (f & Hf & Hd); [intros; apply H; lia|]. destruct (H n) as [y Hy]; [lia|].
  exists (fun j => if (j =? n)%nat then y else f j). split.
  - intros j Hj. destruct (Nat.eqb_spec j n) as [->|]; [exact Hy|apply Hf; lia].
  - intros j Hj. destruct (Nat.eqb_spec j n); [lia|apply Hd; lia].
Qed.
Lemma c79_run rd n C tail : (0 < n)%nat -> exists ult rsv tult trsv, rd_base_cl rd n C tail ult rsv tult trsv.
Proof.
  intros Hn. destruct (finite_choice (rd_factor rd n C) (n - 1) tail) as (f & Hf & Hd).
  { intros j Hj. destruct (summed_exists rd (map (fun i => C i (S j)) (seq 0 (n - 1 - j)))) as [a Ha].
    { intros E. apply (f_equal (@List.length _)) in E. rewrite map_length, seq_length in E. simpl in E. lia. }
    destruct (summed_exists rd (map (fun i => C i j) (seq 0 (n - 1 - j)))) as [b Hb].
    { intros E. apply (f_equal (@List.length _)) in E. rewrite map_length, seq_length in E. simpl in E. lia. }
    exists (rd (a / b)), a, b. auto. }
  set (ult := fun i => rd (C i (n - 1 - i)%nat * rd_cldf rd f (n - 1 - i) i)).
  set (rsv := fun i => rd (ult i - C i (n - 1 - i)%nat)).
  destruct (summed_exists rd (map ult (seq 0 n))) as [tu Hu].
  { intros E. apply (f_equal (@List.length _)) in E. rewrite map_length, seq_length in E. simpl in E. lia. }
  destruct (summed_exists rd (map rsv (seq 0 n))) as [tr Hr].
  { intros E. apply (f_equal (@List.length _)) in E. rewrite map_length, seq_length in E. simpl in E. lia. }
  exists ult, rsv, tu, tr, f. split; [intros; apply Hf; lia|]. split; [apply Hd; lia|]. split; [|auto].
  intros i Hi. split; reflexivity.
Qed.

(** ** Truncation to 53 or 54 significant bits is a rounding *)
Definition bits (x : Qc) : Z := (54 - Z.log2 (Qnum x) + Z.log2 (Zpos (Qden x)))%Z.
Definition scale (k : Z) : Qc := if (0 <=? k)%Z then qz (2 ^ k) else 1 / qz (2 ^ - k).
Definition trunc_pos (x : Qc) : Qc := qz (Qfloor (x * scale (bits x))%Qc) / scale (bits x).
Definition truncate (x : Qc) : Qc := if qcltb x 0 then - trunc_pos (- x) else if qcltb 0 x then trunc_pos x else 0.
Definition u53 : Qc := 1 / qz (2 ^ 53).
Lemma qz_lt_pos z : (0 < z)%Z -> 0 < qz z.
Proof. intros H. rewrite <- qz_0. apply qz_lt. exact H. Qed.
Lemma scale_pos k : 0 < scale k.
Proof.
  unfold scale. destruct (Z.leb_spec 0 k).
  - apply qz_lt_pos. apply Z.pow_pos_nonneg; lia.
  - apply qc_div_pos; [reflexivity|]. apply qz_lt_pos. apply Z.pow_pos_nonneg; lia.
Qed.
Lemma qc_frac (x : Qc) : x = qz (Qnum x) / qz (Zpos (Qden x)).
Proof.
  assert (E : (this x == inject_Z (Qnum x) / inject_Z (Zpos (Qden x)))%Q).
  { destruct x as [[p q] H]. cbn [this Qnum Qden]. unfold Qdiv, Qinv, Qeq, Qmult, inject_Z. simpl. lia. }
  generalize dependent (Qnum x). generalize (Zpos (Qden x)). intros q p E. qc_goal. unfold Qcdiv. qc_push. exact E.
Qed.
Lemma scale_large x : 0 < x -> qz (2 ^ 53) <= x * scale (bits x).
Proof.
  intros Hx. pose proof (qc_frac x) as E. unfold bits, scale. set (p := Qnum x) in *. set (q := Zpos (Qden x)) in *.
  assert (Hq : (0 < q)%Z) by (unfold q; lia). assert (Hqq : 0 < qz q) by (apply qz_lt_pos; exact Hq).
  assert (Hp : (0 < p)%Z).
  { apply qz_lt. rewrite qz_0. assert (X : 0 < x * qz q) by (apply qc_mul_pos; assumption).
    rewrite E, qc_div_mul in X by (apply qc_pos_neq; assumption). exact X. }
  destruct (Z.log2_spec p Hp) as [A1 A2]. destruct (Z.log2_spec q Hq) as [B1 B2].
  pose proof (Z.log2_nonneg p) as LP. pose proof (Z.log2_nonneg q) as LQ.
  set (a := Z.log2 p) in *. set (b := Z.log2 q) in *. clearbody a b p q.
  rewrite E. destruct (Z.leb_spec 0 (54 - a + b)).
  - replace (qz p / qz q * qz (2 ^ (54 - a + b))) with (qz p * qz (2 ^ (54 - a + b)) / qz q) by (field; apply qc_pos_neq; assumption).
    apply qc_le_div; [assumption|]. rewrite <- !qz_mul. apply qz_le.
    assert (K : (2 ^ a * 2 ^ (54 - a + b) = 2 ^ 53 * 2 ^ Z.succ b)%Z).
    { rewrite <- !Z.pow_add_r by lia. f_equal. lia. }
    assert (0 < 2 ^ (54 - a + b))%Z by (apply Z.pow_pos_nonneg; lia).
    assert (0 < 2 ^ 53)%Z by reflexivity. set (t := (2 ^ 53)%Z) in *. clearbody t. nia.
  - assert (Hs : 0 < qz (2 ^ - (54 - a + b))) by (apply qz_lt_pos, Z.pow_pos_nonneg; lia).
    replace (qz p / qz q * (1 / qz (2 ^ - (54 - a + b)))) with (qz p / (qz q * qz (2 ^ - (54 - a + b))))
      by (field; split; apply qc_pos_neq; assumption).
    apply qc_le_div; [apply qc_mul_pos; assumption|]. rewrite <- !qz_mul. apply qz_le.
    assert (K : (2 ^ a = 2 ^ Z.succ b * (2 ^ 53 * 2 ^ - (54 - a + b)))%Z).
    { rewrite <- !Z.pow_add_r by lia. f_equal. lia. }
    assert (0 < 2 ^ 53 * 2 ^ - (54 - a + b))%Z by (apply Z.mul_pos_pos; [reflexivity|apply Z.pow_pos_nonneg; lia]).
    replace (2 ^ 53 * (q * 2 ^ - (54 - a + b)))%Z with (q * (2 ^ 53 * 2 ^ - (54 - a + b)))%Z by ring.
    set (t := (2 ^ 53 * 2 ^ - (54 - a + b))%Z) in *. clearbody t. nia.
Qed.
Lemma trunc_bounds x : 0 < x -> x * (1 - u53) <= trunc_pos x /\ trunc_pos x <= x.
Proof.
  intros Hx. pose proof (scale_large x Hx) as L. pose proof (scale_pos (bits x)) as Sp. unfold trunc_pos.
  set (s := scale (bits x)) in *. clearbody s. destruct (floor_spec (x * s)%Qc) as [F1 F2].
  assert (Hu : 0 < u53) by (vm_compute; reflexivity).
  assert (E : qz (2 ^ 53) * u53 = 1) by (apply Qc_is_canon; vm_compute; reflexivity).
  split.
  - apply qc_le_div; [assumption|]. rewrite qz_add, qz_1 in F2.
    pose proof (Qcmult_le_compat_r _ _ u53 L (Qclt_le_weak _ _ Hu)) as M. rewrite E in M.
    replace (x * (1 - u53) * s) with (x * s - x * s * u53) by ring.
    set (a := x * s) in *. set (c := a * u53) in *. clearbody a c. revert F2. generalize (qz (Qfloor a)). intros z F2. clear -M F2. qlra.
  - apply qc_div_le; assumption.
Qed.
Lemma truncate_rounding : rounding u53 truncate.
Proof.
  assert (Hu : 0 < u53) by (vm_compute; reflexivity). assert (Hu1 : u53 < 1) by (vm_compute; reflexivity).
  pose proof trunc_bounds as T. revert Hu Hu1 T. generalize u53. intros u Hu Hu1 T.
  split; [apply Qclt_le_weak; exact Hu|]. split; [exact Hu1|]. intros x. unfold truncate.
  destruct (qcltb_spec x 0) as [Hx|Hx].
  - assert (Hn : 0 < - x) by qlra. destruct (T _ Hn) as [A B]. set (t := trunc_pos (- x)) in *. clearbody t.
    assert (M : 0 <= (- x) * u) by nn. replace (- x * (1 - u)) with (- x - (- x) * u) in A by ring.
    replace (x * (1 + u)) with (x - (- x) * u) by ring. replace (x * (1 - u)) with (x + (- x) * u) by ring.
    set (c := (- x) * u) in *. clearbody c.
    split; [intros H; exfalso; qlra|]. intros _. split; qlra.
  - destruct (qcltb_spec 0 x) as [Hp|Hp].
    + destruct (T _ Hp) as [A B]. split; [|intros H; exfalso; qlra]. intros _. split; [exact A|].
      assert (M : 0 <= x * u) by nn. replace (x * (1 + u)) with (x + x * u) by ring.
      set (c := x * u) in *. clearbody c. qlra.
    + assert (x = 0) by (apply Qcle_antisym; apply Qcnot_lt_le; assumption). subst x.
      split; intros _; split; qlra.
Qed.
