(** Proofs about the residuals (C49). *)

From Coq Require Import String QArith Qcanon ZArith List Bool Lia Lqa.
From Verif Require Import Val QcLib Frame Triangle A2A Base Mack Resid ListLib Spec RegFacts.
Import ListNotations.
Open Scope list_scope.
Open Scope nat_scope.

(** Expected block: residuals [r k], [k < c], with the variances of the code. *)
Definition code_sigma2 (c : nat) (r : nat -> Qc) : Qc := (sumf 0 c (fun k => r k * r k) / qn c - 1)%Qc.
Definition code_scale2 (c : nat) (r : nat -> Qc) : Qc := (code_sigma2 c r * (qn (c - 1) / qn c))%Qc.
(** The documented scale: the sample variance. *)
Definition sample_var (c : nat) (r : nat -> Qc) : Qc := (sumf 0 c (fun k => r k * r k) / qn (c - 1))%Qc.

Lemma qn_neq0 c : 0 < c -> qn c <> 0%Qc.
Proof. intros H E. unfold qn in E. rewrite <- qz_0 in E. apply qz_inj in E. lia. Qed.
Lemma qn_pos' c : 0 < c -> (0 < qn c)%Qc.
Proof. intros H. unfold qn. rewrite <- qz_0. apply qz_lt. lia. Qed.
Lemma block_eq t (lab : nat -> Z) (r : nat -> Qc) c : 0 < c ->
  resid_block t (map (fun k => (lab k, Fin (r k))) (seq 0 c)) =
  map (fun k => mkResid (lab k) (Fin (r k)) (Fin (code_sigma2 c r)) (Fin (code_scale2 c r)) t) (seq 0 c).
Proof.
  intros Hc. unfold resid_block. rewrite map_length, seq_length, !map_map. cbn [fst snd].
  assert (E : skipsum (map (fun x => vmul (Fin (r x)) (Fin (r x))) (seq 0 c)) = Fin (sumf 0 c (fun k => r k * r k)%Qc)).
  { change (fun x => vmul (Fin (r x)) (Fin (r x))) with (fun x => Fin (r x * r x)%Qc).
    rewrite <- (map_map (fun x => (r x * r x)%Qc) Fin). rewrite skipsum_fin. reflexivity. }
  rewrite E.
  assert (N : vdiv (Fin (sumf 0 c (fun k => r k * r k)%Qc)) (vz (Z.of_nat c)) = Fin (sumf 0 c (fun k => r k * r k) / qn c)%Qc).
  { apply vdiv_fin. apply (qn_neq0 c Hc). }
  rewrite N. change (vsub (Fin ?a) (vz 1)) with (Fin (a - qz 1)%Qc).
  assert (D : vdiv (vz (Z.of_nat c - 1)) (vz (Z.of_nat c)) = Fin (qn (c - 1) / qn c)%Qc).
  { replace (Z.of_nat c - 1)%Z with (Z.of_nat (c - 1)) by lia. apply vdiv_fin. apply (qn_neq0 c Hc). }
  rewrite D, qz_1. reflexivity.
Qed.

Lemma filter_map_S (p : nat -> bool) l : filter p (map S l) = map S (filter (fun k => p (S k)) l).
Proof. induction l as [|x l IH]; simpl; [reflexivity|]. destruct (p (S x)); simpl; rewrite IH; reflexivity. Qed.
Lemma flat_map_ext' {A B} (f g : A -> list B) l : (forall x, In x l -> f x = g x) -> flat_map f l = flat_map g l.
Proof. induction l as [|x l IH]; simpl; intros H; [reflexivity|]. rewrite H, IH; auto. Qed.

Section R.
  Variables (m : lmat) (n : nat) (C : nat -> nat -> Qc) (f : nat -> Qc).
  Hypothesis Hr : regular m n C.
  Let o_ i := nth i (m_idx m) 0%Z.
  Let d_ j := nth j (m_cols m) 0%Z.
  Let ldfs : series := map (fun j => (d_ j, Fin (f j))) (seq 0 n).
  Lemma nr_ : nrows m = n. Proof. apply Hr. Qed.
  Lemma nc_ : ncols m = n. Proof. apply Hr. Qed.
  Lemma cell_ i j : i < n -> j < n -> cell (m_cells m) i j = rc n C i j.
  Proof. intros Hi Hj. unfold cell, rc. destruct Hr as (_ & _ & _ & _ & _ & _ & H). apply H; auto. Qed.
  Lemma d_nd : NoDup (map d_ (seq 0 n)).
  Proof.
    unfold d_. destruct Hr as (_ & Sd & _ & Ld & _). rewrite <- (map_ok_nth (m_cols m) 0%Z n Ld).
    apply zsorted_nodup. exact Sd.
  Qed.
  Lemma look j : j < n -> slookup ldfs (d_ j) = Fin (f j).
  Proof. intros Hj. unfold ldfs. apply (slookup_map d_ (fun j => Fin (f j))); [apply d_nd|apply in_seq; lia]. Qed.

  Lemma by_devp : 3 <= n ->
    residuals_by_devp m ldfs = Ok (flat_map (fun j =>
      let c := n - 1 - j in
      let r i := (C i j * f j - C i (S j))%Qc in
      map (fun i => mkResid (o_ i) (Fin (r i)) (Fin (code_sigma2 c r)) (Fin (code_scale2 c r)) (d_ j)) (seq 0 c))
      (seq 0 (n - 2))).
  Proof.
    intros Hn. unfold residuals_by_devp. rewrite nr_, nc_.
    destruct (seq 0 (n - 2)) as [|j0 js] eqn:Es; [apply (f_equal (@length nat)) in Es; rewrite seq_length in Es; simpl in Es; lia|].
    rewrite <- Es. clear Es. apply f_equal. apply flat_map_ext'. intros j Hj. apply in_seq in Hj. cbv zeta.
    assert (Ef : filter (fun i => negb (isnan (cell (m_cells m) i (S j)))) (seq 0 n) = seq 0 (n - 1 - j)).
    { apply filter_seq_prefix; [lia|]. intros i Hi. rewrite cell_ by lia. unfold rc.
      destruct (Nat.ltb_spec (i + S j) n), (Nat.ltb_spec i (n - 1 - j)); simpl; auto; lia. }
    rewrite Ef. rewrite <- block_eq by lia. unfold d_ at 1. f_equal. apply map_ext_in. intros i Hi. apply in_seq in Hi.
    rewrite !cell_ by lia. unfold rc. rewrite !ltb_if by lia. fold (d_ j). rewrite look by lia. reflexivity.
  Qed.

  Lemma by_origin : 2 <= n ->
    residuals_by_origin m ldfs = Ok (flat_map (fun i =>
      let c := n - 1 - i in
      let r k := (C i k * f k - C i (S k))%Qc in
      map (fun k => mkResid (d_ (S k)) (Fin (r k)) (Fin (code_sigma2 c r)) (Fin (code_scale2 c r)) (o_ i)) (seq 0 c))
      (seq 0 (n - 1))).
  Proof.
    intros Hn. unfold residuals_by_origin. rewrite nr_, nc_.
    assert (El : listb Z.eqb (map fst ldfs) (m_cols m) = true).
    { unfold ldfs. rewrite map_map. simpl. destruct Hr as (_ & _ & _ & Ld & _).
      unfold d_. rewrite <- (map_ok_nth (m_cols m) 0%Z n Ld). generalize (m_cols m).
      induction l as [|z l IH]; simpl; [reflexivity|]. rewrite Z.eqb_refl. exact IH. }
    rewrite El. simpl negb. cbv iota.
    destruct (seq 0 (n - 1)) as [|j0 js] eqn:Es; [apply (f_equal (@length nat)) in Es; rewrite seq_length in Es; simpl in Es; lia|].
    rewrite <- Es. clear Es. apply f_equal. apply flat_map_ext'. intros i Hi. apply in_seq in Hi. cbv zeta.
    match goal with |- context [filter ?p (seq 0 n)] => assert (Ef : filter p (seq 0 n) = map S (seq 0 (n - 1 - i))) end.
    { replace n with (S (n - 1)) at 1 by lia. simpl seq. rewrite <- seq_shift. simpl filter.
      rewrite andb_false_r. rewrite filter_map_S. f_equal. apply filter_seq_prefix; [lia|].
      intros k Hk. rewrite !cell_ by lia. fold (d_ k). rewrite look by lia. unfold rc.
      destruct (Nat.ltb_spec (i + S k) n), (Nat.ltb_spec (i + k) n), (Nat.ltb_spec k (n - 1 - i)); simpl; auto; lia. }
    rewrite Ef, map_map. rewrite <- block_eq by lia. f_equal. apply map_ext_in. intros k Hk. apply in_seq in Hk.
    rewrite !cell_ by lia. unfold rc. rewrite !ltb_if by lia. fold (d_ k). rewrite look by lia. reflexivity.
  Qed.
End R.

(** The code's [sigma] is never the sample standard deviation. *)
Lemma sumf_sq_nonneg c r : (0 <= sumf 0 c (fun k => r k * r k))%Qc.
Proof. apply sumf_nonneg. intros k _. qnra. Qed.
Lemma never c r : 2 <= c -> (code_sigma2 c r < sample_var c r)%Qc.
Proof.
  intros Hc. unfold code_sigma2, sample_var. pose proof (sumf_sq_nonneg c r) as H.
  revert H. generalize (sumf 0 c (fun k => r k * r k)%Qc). intros s H.
  assert (P1 : (0 < qn (c - 1))%Qc) by (apply qn_pos'; lia).
  assert (E : qn c = (qn (c - 1) + 1)%Qc).
  { unfold qn. change 1%Qc with (qz 1). rewrite <- qz_add. apply f_equal. lia. }
  rewrite E. revert P1. generalize (qn (c - 1)). intros a P1.
  assert (L : (s / (a + 1) <= s / a)%Qc).
  { apply qc_div_le; [qlra|].
    assert (E2 : (s / a * (a + 1) = s + s / a)%Qc) by (field; apply qc_pos_neq; exact P1). rewrite E2.
    assert (0 <= s / a)%Qc by (apply qc_le_div; [exact P1|qlra]). qlra. }
  qlra.
Qed.
(** It is not even a real number when the residuals are small. *)
Lemma small c r : 0 < c -> ((code_sigma2 c r < 0)%Qc <-> (sumf 0 c (fun k => r k * r k) < qn c)%Qc).
Proof.
  intros Hc. unfold code_sigma2. generalize (sumf 0 c (fun k => r k * r k)%Qc). intros s.
  pose proof (qn_pos' c Hc) as P. split; intros H.
  - apply Qcnot_le_lt. intros L. revert H. apply Qcle_not_lt.
    assert (1 <= s / qn c)%Qc by (apply qc_le_div; [exact P|rewrite Qcmult_1_l; exact L]). qlra.
  - apply Qcnot_le_lt. intros L. revert H. apply Qcle_not_lt.
    assert (1 <= s / qn c)%Qc by qlra. apply qc_le_div in H; [|exact P]. rewrite Qcmult_1_l in H. exact H.
Qed.
(** The divisor of the standardised residuals is not the sample standard deviation either. *)
Lemma never_scale c r : 2 <= c -> (code_scale2 c r < sample_var c r)%Qc.
Proof.
  intros Hc. pose proof (never c r Hc) as H. unfold code_scale2.
  assert (V : (0 <= sample_var c r)%Qc).
  { unfold sample_var. apply qc_le_div; [apply qn_pos'; lia|]. rewrite Qcmult_0_l. apply sumf_sq_nonneg. }
  assert (P : (0 < qn (c - 1) / qn c)%Qc).
  { assert (P1 : (0 < qn (c - 1))%Qc) by (apply qn_pos'; lia). assert (P2 : (0 < qn c)%Qc) by (apply qn_pos'; lia).
    apply Qcnot_le_lt. intros L. apply qc_div_le in L; [|exact P2]. rewrite Qcmult_0_l in L. revert P1. apply Qcle_not_lt. exact L. }
  assert (Q1 : (qn (c - 1) / qn c < 1)%Qc).
  { apply Qcnot_le_lt. intros L. apply qc_le_div in L; [|apply qn_pos'; lia]. rewrite Qcmult_1_l in L.
    unfold qn in L. apply (proj1 (qz_le _ _)) in L. lia. }
  revert H V P Q1. generalize (code_sigma2 c r) (sample_var c r) (qn (c - 1) / qn c)%Qc. intros a v t H V P Q1.
  destruct (qc_lt_le_dec a 0) as [L|L].
  - assert (a * t < 0)%Qc by qnra. qlra.
  - assert (a * t <= a)%Qc by qnra. qlra.
Qed.
