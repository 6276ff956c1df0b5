(** Proofs of C88. *)

From Coq Require Import String QArith Qcanon ZArith List Bool Lia Permutation Sorting.Sorted.
From Verif Require Import Val Frame Triangle A2A Base Mack Diag ListLib QcLib Spec SpecRel SpecEmerge SpecBooks CumFacts RegFacts AvgFacts AvgClaims AvgClaims2
  BaseClaims MackFacts MackExplicit RelFacts RelClaims RelClaims2 EmergeClaims.
Import ListNotations.
Open Scope list_scope.
Open Scope nat_scope.

(** ** The mediant *)
Lemma mediant p q r s : (0 < q)%Qc -> (0 < s)%Qc -> (p / q <= r / s)%Qc -> (p / q <= (p + r) / (q + s) /\ (p + r) / (q + s) <= r / s)%Qc.
Proof.
  intros Hq Hs H. assert (Hqs : (0 < q + s)%Qc) by qlra.
  assert (E1 : (p = p / q * q)%Qc) by (field; apply qc_pos_neq; auto).
  assert (E2 : (r = r / s * s)%Qc) by (field; apply qc_pos_neq; auto).
  set (a := (p / q)%Qc) in *. set (b := (r / s)%Qc) in *. clearbody a b. subst p r.
  assert (Q1 : (0 <= (b - a) * s)%Qc) by (apply qc_mul_nonneg; qlra).
  assert (Q2 : (0 <= (b - a) * q)%Qc) by (apply qc_mul_nonneg; qlra).
  split.
  - replace a with (a * (q + s) / (q + s))%Qc at 1 by (field; apply qc_pos_neq; auto).
    unfold Qcdiv. apply Qcmult_le_compat_r; [|apply Qclt_le_weak, qc_inv_pos; auto].
    replace (a * q + b * s)%Qc with (a * (q + s) + (b - a) * s)%Qc by ring. qlra.
  - replace b with (b * (q + s) / (q + s))%Qc at 2 by (field; apply qc_pos_neq; auto).
    unfold Qcdiv. apply Qcmult_le_compat_r; [|apply Qclt_le_weak, qc_inv_pos; auto].
    replace (b * (q + s))%Qc with (a * q + b * s + (b - a) * q)%Qc by ring. qlra.
Qed.
Definition mid (p q y : Qc) : Prop := (p <= y /\ y <= q)%Qc \/ (q <= y /\ y <= p)%Qc.
Lemma mediant_mid p q r s : (0 < q)%Qc -> (0 < s)%Qc -> mid (p / q) (r / s) ((p + r) / (q + s)).
Proof.
  intros Hq Hs. destruct (Qclt_le_dec (r / s) (p / q)) as [H|H].
  - right. apply Qclt_le_weak in H. destruct (mediant r s p q Hs Hq H) as (A & B).
    rewrite (Qcplus_comm p r), (Qcplus_comm q s). auto.
  - left. apply mediant; auto.
Qed.
Lemma mid_eq p y : mid p p y -> y = p.
Proof. intros [[A B]|[A B]]; apply Qcle_antisym; auto. Qed.

(** ** From the factors to the estimates *)
Lemma plus_each_fin n (g h : nat -> Qc) : plus_each (map (fun i => Fin (g i)) (seq 0 n)) (map (fun i => Fin (h i)) (seq 0 n))
  = map (fun i => Fin (g i + h i)%Qc) (seq 0 n).
Proof. unfold plus_each. rewrite combine_map_lr, map_map. reflexivity. Qed.
Lemma sumf_add2 a k (f g : nat -> Qc) : sumf a k (fun i => f i + g i)%Qc = (sumf a k f + sumf a k g)%Qc.
Proof. revert a. induction k as [|k IH]; intro a; [unfold sumf; cbn; ring|]. rewrite !sumf_Sl, IH. ring. Qed.

Section Shape.
  Variables (n : nat) (A B : nat -> nat -> Qc) (f1 f2 f : nat -> Qc) (r1 r2 r : cl_result).
  Let lat (C : nat -> nat -> Qc) i := C i (n - 1 - i)%nat.
  Let cdf (g : nat -> Qc) i := prodf (n - 1 - i) (S i) g.
  Definition shape (C : nat -> nat -> Qc) (g : nat -> Qc) (x : cl_result) : Prop :=
    map snd (c_ldfs x) = map (fun j => Fin (g j)) (seq 0 n) /\
    map s_latest (c_rows x) = map (fun i => Fin (lat C i)) (seq 0 n) /\
    map s_cldf (c_rows x) = map (fun i => Fin (cdf g i)) (seq 0 n) /\
    map s_ultimate (c_rows x) = map (fun i => Fin (lat C i * cdf g i)%Qc) (seq 0 n) /\
    map s_reserve (c_rows x) = map (fun i => Fin (lat C i * cdf g i - lat C i)%Qc) (seq 0 n) /\
    snd (fst (c_total x)) = Fin (sumf 0 n (fun i => lat C i * cdf g i)%Qc) /\
    snd (c_total x) = Fin (sumf 0 n (fun i => lat C i * cdf g i - lat C i)%Qc).
  Hypothesis H1 : shape A f1 r1.
  Hypothesis H2 : shape B f2 r2.
  Hypothesis H : shape (fun i j => A i j + B i j)%Qc f r.
  Hypothesis PA : positive n A.
  Hypothesis PB : positive n B.
  Hypothesis M : forall j, j < n -> mid (f1 j) (f2 j) (f j).
  Hypothesis F1 : forall j, j < n -> (0 <= f1 j)%Qc.

  Lemma shape_combines : combines n r1 r2 r.
  Proof.
    destruct H1 as (L1 & T1 & K1 & U1 & R1 & V1 & W1). destruct H2 as (L2 & T2 & K2 & U2 & R2 & V2 & W2).
    destruct H as (L & T & K & U & R & V & W). unfold combines, factors_of.
    rewrite L1, L2, L, T1, T2, T, K1, K2, U1, U2, U, R1, R2, R, V1, V2, V, W1, W2, W.
    split; [|split; [|split]].
    - intros j Hj. rewrite !nth_map_seq by auto. exists (f1 j), (f2 j), (f j). repeat (split; [reflexivity|]). apply M. lia.
    - rewrite plus_each_fin. reflexivity.
    - intro E. assert (E12 : forall j, j < n -> f2 j = f1 j).
      { intros j Hj. assert (Q := f_equal (fun z => nth j z NaN) E). cbn beta in Q. rewrite !nth_map_seq in Q by auto. cbn [plus] in Q. congruence. }
      assert (E1 : forall j, j < n -> f j = f1 j).
      { intros j Hj. apply mid_eq. assert (Q := M j Hj). rewrite (E12 j Hj) in Q. exact Q. }
      assert (D : forall i, i < n -> cdf f i = cdf f1 i /\ cdf f2 i = cdf f1 i).
      { intros i Hi. unfold cdf. split; apply prodf_ext; intros; [apply E1|apply E12]; lia. }
      split; [apply map_seq_ext; intros j Hj; rewrite E1 by lia; reflexivity|].
      split. { rewrite plus_each_fin. apply map_seq_ext. intros i Hi. destruct (D i ltac:(lia)) as (-> & ->). f_equal. unfold lat. ring. }
      split. { rewrite plus_each_fin. apply map_seq_ext. intros i Hi. destruct (D i ltac:(lia)) as (-> & ->). f_equal. unfold lat. ring. }
      cbn [vadd]. rewrite <- !sumf_add2. split; f_equal; apply sumf_ext; intros i Hi; destruct (D i ltac:(lia)) as (-> & ->); unfold lat; ring.
    - intros O i Hi. assert (O' : forall j, j < n -> (f1 j <= f2 j)%Qc).
      { intros j Hj. destruct (O j Hj) as (p & q & Ep & Eq & Le). rewrite !nth_map_seq in Ep, Eq by auto. cbn [plus] in *.
        replace (f1 j) with p by congruence. replace (f2 j) with q by congruence. auto. }
      assert (M' : forall j, j < n -> (f1 j <= f j /\ f j <= f2 j)%Qc).
      { intros j Hj. specialize (O' j Hj). destruct (M j Hj) as [Q|[Qa Qb]]; auto. split; [apply Qcle_trans with (f2 j)|apply Qcle_trans with (f1 j)]; auto. }
      rewrite !nth_map_seq by auto. cbn [plus]. do 4 eexists. do 4 (split; [reflexivity|]).
      assert (G1 : (cdf f1 i <= cdf f i)%Qc).
      { unfold cdf. apply prodf_mono. intros j Hj. split; [apply F1; lia|apply M'; lia]. }
      assert (G2 : (cdf f i <= cdf f2 i)%Qc).
      { unfold cdf. apply prodf_mono. intros j Hj. split; [|apply M'; lia]. apply Qcle_trans with (f1 j); [apply F1; lia|apply M'; lia]. }
      assert (Pl : (0 <= lat (fun i j => A i j + B i j) i)%Qc).
      { unfold lat. assert (Q1 := PA i (n - 1 - i) ltac:(lia)). assert (Q2 := PB i (n - 1 - i) ltac:(lia)). qlra. }
      rewrite !(Qcmult_comm (lat _ _)). split; apply Qcmult_le_compat_r; auto.
  Qed.
End Shape.

Lemma pure_shape os ds n C f tail : shape n C f (base_pure os ds n C f tail).
Proof.
  unfold shape, base_pure. cbn [c_ldfs c_rows c_total fst snd]. rewrite !map_map. cbn [snd s_latest s_cldf s_ultimate s_reserve]. repeat split; reflexivity.
Qed.
Lemma mack_pure_shape os ds n C W al tail : shape n C (xf n C W al) (k_cl (mack_pure os ds n C W al tail)).
Proof.
  unfold shape, mack_pure. cbn [k_cl c_ldfs c_rows c_total fst snd]. rewrite !map_map. cbn [snd s_latest s_cldf s_ultimate s_reserve]. repeat split; reflexivity.
Qed.

Lemma weighted_label s a k : volume_weighted s -> s = avg_label a k -> a = Weighted.
Proof.
  intros [->|(l & ->)] E.
  - change "all-weighted"%string with (avg_label Weighted 0) in E. apply avg_label_inj in E as (-> & _). auto.
  - destruct (Nat.eq_dec l 0) as [->|N].
    + exfalso. unfold avg_label in E. destruct (k =? 0) eqn:Ek; destruct a; try discriminate.
      apply Nat.eqb_neq in Ek. cbn in E. assert (Q : str_nat k = str_nat 0) by (change (str_nat 0) with "0"%string; congruence).
      apply str_nat_inj in Q. auto.
    + assert (Q : ("weighted-" ++ str_nat l)%string = avg_label Weighted l).
      { unfold avg_label. destruct (Nat.eqb_spec l 0); [congruence|]. reflexivity. }
      rewrite Q in E. apply avg_label_inj in E as (-> & _). auto.
Qed.

(** The factors of a volume-weighted label. *)
Definition wavg (C : nat -> nat -> Qc) (n k j : nat) : Qc :=
  (qsum (map (fun i => C i (S j)) (rows_of k (n - 1 - j))) / qsum (map (fun i => C i j) (rows_of k (n - 1 - j))))%Qc.
Definition wfac (C : nat -> nat -> Qc) (n k : nat) (tail : Qc) (j : nat) : Qc := if S j <? n then wavg C n k j else tail.

Lemma base_weighted gm m n C ind (w : nat -> nat -> bool) v cl s (tail : Qc) r : regular m n C -> positive n C -> 2 < n ->
  tail_fits (m_cols m) -> clvi m = Ok cl -> volume_weighted s ->
  (forall i j, i + j < n - 1 -> cell ind i j = Fin (if w i j then 1 else 0)%Qc) ->
  (forall j, j < n - 1 -> w (n - 2 - j) j = true) ->
  snd (base_cl gm (mkTri m "origin" "dev" v) cl ind (SelLabel s) (Fin tail)) = Ok r ->
  exists k, s = avg_label Weighted k /\ In (Weighted, k) (avg_specs (n - 1)) /\
    r = base_pure (m_idx m) (m_cols m) n C (wfac C n k tail) (Fin tail).
Proof.
  intros R P Hn Ev D Vw Hi Hl B.
  destruct (base_cl gm (mkTri m "origin" "dev" v) cl ind (SelLabel s) (Fin tail)) as [sel' o] eqn:E. cbn [snd] in B. subst o.
  assert (E' := E). apply base_cl_inv in E' as (S1 & _). cbn [t_mat select_ldfs] in S1. injection S1 as S0 S1.
  destruct (label_inv gm m n C ind w s (Fin tail) _ R P Hn Ev Hi Hl S1) as (a & k & Es & I & Lf).
  assert (a = Weighted) by (eapply weighted_label; eauto). subst a. exists k. split; auto. split; auto.
  eapply base_pure_inv; eauto; [lia|]. rewrite Lf. apply map_seq_ext. intros j Hj. unfold wfac, avgval, wavg.
  destruct (S j <? n); reflexivity.
Qed.

Lemma rows_pos C n k j c : positive n C -> j < n - 1 -> c <= S j -> (0 < qsum (map (fun i => C i c) (rows_of k (n - 1 - j))))%Qc.
Proof.
  intros P Hj Hc. apply qsum_pos.
  - intro E. apply map_eq_nil in E. assert (Q := rows_last k (n - 1 - j) ltac:(lia)). rewrite E in Q. destruct Q.
  - intros x I. apply in_map_iff in I as (i & <- & I). apply in_rows in I. apply P. lia.
Qed.

Lemma wfac_mid A B n k tail j : positive n A -> positive n B -> j < n ->
  mid (wfac A n k tail j) (wfac B n k tail j) (wfac (fun i j => A i j + B i j)%Qc n k tail j).
Proof.
  intros PA PB Hj. unfold wfac. destruct (Nat.ltb_spec (S j) n) as [L|L]; [|left; split; apply Qcle_refl].
  unfold wavg. rewrite !(qsum_map_add (fun i => A i _)). apply mediant_mid; apply rows_pos; auto; lia.
Qed.
Lemma wfac_nonneg C n k tail j : positive n C -> (0 <= tail)%Qc -> (0 <= wfac C n k tail j)%Qc.
Proof.
  intros P Ht. unfold wfac. destruct (Nat.ltb_spec (S j) n) as [L|L]; auto.
  unfold wavg. apply Qclt_le_weak, qc_div_pos; apply rows_pos; auto; lia.
Qed.
Lemma pos_add n A B : positive n A -> positive n B -> positive n (fun i j => A i j + B i j)%Qc.
Proof. intros PA PB i j H. specialize (PA i j H). specialize (PB i j H). qlra. Qed.

Lemma c88_base gm m1 m2 m n A B ind1 ind2 ind (w1 w2 w : nat -> nat -> bool) v cl s (tail : Qc) r1 r2 :
  regular m1 n A -> regular m2 n B -> regular m n (fun i j => A i j + B i j)%Qc -> positive n A -> positive n B -> 2 < n ->
  tail_fits (m_cols m1) -> tail_fits (m_cols m2) -> tail_fits (m_cols m) -> clvi m = Ok cl -> volume_weighted s -> (0 <= tail)%Qc ->
  (forall i j, i + j < n - 1 -> cell ind1 i j = Fin (if w1 i j then 1 else 0)%Qc) -> (forall j, j < n - 1 -> w1 (n - 2 - j) j = true) ->
  (forall i j, i + j < n - 1 -> cell ind2 i j = Fin (if w2 i j then 1 else 0)%Qc) -> (forall j, j < n - 1 -> w2 (n - 2 - j) j = true) ->
  (forall i j, i + j < n - 1 -> cell ind i j = Fin (if w i j then 1 else 0)%Qc) -> (forall j, j < n - 1 -> w (n - 2 - j) j = true) ->
  snd (base_cl gm (mkTri m1 "origin" "dev" v) cl ind1 (SelLabel s) (Fin tail)) = Ok r1 ->
  snd (base_cl gm (mkTri m2 "origin" "dev" v) cl ind2 (SelLabel s) (Fin tail)) = Ok r2 ->
  exists r, snd (base_cl gm (mkTri m "origin" "dev" v) cl ind (SelLabel s) (Fin tail)) = Ok r /\ combines n r1 r2 r.
Proof.
  intros R1 R2 R PA PB Hn E1 E2 Ev D Vw Ht I1 L1 I2 L2 Hi Hl B1 B2.
  assert (PS := pos_add n A B PA PB).
  assert (D1 := clvi_same m m1 n _ A cl R R1 ltac:(lia) D). assert (D2 := clvi_same m m2 n _ B cl R R2 ltac:(lia) D).
  destruct (base_weighted gm m1 n A ind1 w1 v cl s tail r1 R1 PA Hn E1 D1 Vw I1 L1 B1) as (k & Es & Ik & ->).
  destruct (base_weighted gm m2 n B ind2 w2 v cl s tail r2 R2 PB Hn E2 D2 Vw I2 L2 B2) as (k' & Es' & _ & ->).
  assert (Q : k' = k) by (apply (avg_label_inj Weighted _ Weighted); congruence). subst k'.
  set (S := fun i j => (A i j + B i j)%Qc) in *.
  destruct (base_cl_label gm m n S ind w v cl Weighted k tail (wfac S n k tail) R PS Hn Ev D Hi Hl Ik) as (r & Er & Lr).
  - intros j Hj. unfold wfac, avgval, wavg. destruct (Nat.ltb_spec (Datatypes.S j) n); [reflexivity|lia].
  - unfold wfac. destruct (Nat.ltb_spec (Datatypes.S (n - 1)) n); [lia|reflexivity].
  - destruct (base_pure_inv gm m n S v cl ind _ _ _ r _ R ltac:(lia) D Er Lr) as (-> & _).
    subst s. rewrite Er. eexists. split; [reflexivity|].
    eapply shape_combines with (A := A) (B := B); try apply pure_shape; auto.
    + intros j Hj. apply wfac_mid; auto.
    + intros j Hj. apply wfac_nonneg; auto.
Qed.

Lemma xf_mid A B W n j : positive n A -> positive n B ->
  (forall i j, i + j < n - 1 -> (0 <= W i j)%Qc) -> (forall j, j < n - 1 -> exists i, i + j < n - 1 /\ (0 < W i j)%Qc) -> j < n ->
  mid (xf n A W 1 j) (xf n B W 1 j) (xf n (fun i j => A i j + B i j)%Qc W 1 j).
Proof.
  intros PA PB Wn Wc Hj. unfold xf. destruct (Nat.ltb_spec (S j) n) as [L|L]; [|left; split; apply Qcle_refl].
  assert (PS := pos_add n A B PA PB).
  assert (E : forall C, positive n C -> sumf 0 (n - 1 - j) (fun i => W i j * C i j ^ 1 * (C i (S j) / C i j))%Qc = sumf 0 (n - 1 - j) (fun i => W i j * C i (S j))%Qc).
  { intros C P. apply sumf_ext. intros i Hi. cbn [Qcpower]. field. apply qc_pos_neq, P. lia. }
  rewrite (E _ PS), (E _ PA), (E _ PB).
  replace (sumf 0 (n - 1 - j) (fun i => W i j * (A i (S j) + B i (S j)))%Qc)
    with (sumf 0 (n - 1 - j) (fun i => W i j * A i (S j)) + sumf 0 (n - 1 - j) (fun i => W i j * B i (S j)))%Qc
    by (rewrite <- sumf_add2; apply sumf_ext; intros; ring).
  replace (sumf 0 (n - 1 - j) (fun i => W i j * (A i j + B i j) ^ 1)%Qc)
    with (sumf 0 (n - 1 - j) (fun i => W i j * A i j ^ 1) + sumf 0 (n - 1 - j) (fun i => W i j * B i j ^ 1))%Qc
    by (rewrite <- sumf_add2; apply sumf_ext; intros; cbn [Qcpower]; ring).
  apply mediant_mid; apply xden_pos; auto; apply Wc; lia.
Qed.

Lemma c88_mack m1 m2 m n A B ind W v cl tail k1 k2 :
  regular m1 n A -> regular m2 n B -> regular m n (fun i j => A i j + B i j)%Qc -> positive n A -> positive n B -> 3 < n ->
  tail_fits (m_cols m1) -> tail_fits (m_cols m2) -> tail_fits (m_cols m) -> clvi m = Ok cl -> weights ind n W ->
  mack_cl (mkTri m1 "origin" "dev" v) cl ind 1 tail = Ok k1 -> mack_cl (mkTri m2 "origin" "dev" v) cl ind 1 tail = Ok k2 ->
  exists k, mack_cl (mkTri m "origin" "dev" v) cl ind 1 tail = Ok k /\ combines n (k_cl k1) (k_cl k2) (k_cl k).
Proof.
  intros R1 R2 R PA PB Hn E1 E2 Ev D Hw K1 K2.
  assert (PS := pos_add n A B PA PB).
  assert (D1 := clvi_same m m1 n _ A cl R R1 ltac:(lia) D). assert (D2 := clvi_same m m2 n _ B cl R R2 ltac:(lia) D).
  rewrite (mack_explicit m1 n A ind W 1 v cl tail R1 PA Hn E1 D1 Hw) in K1. injection K1 as <-.
  rewrite (mack_explicit m2 n B ind W 1 v cl tail R2 PB Hn E2 D2 Hw) in K2. injection K2 as <-.
  eexists. split; [apply (mack_explicit m n _ ind W 1 v cl tail R PS Hn Ev D Hw)|].
  destruct Hw as (Wcell & Wn & Wc).
  eapply shape_combines with (A := A) (B := B); try apply mack_pure_shape; auto.
  - intros j Hj. apply xf_mid; auto.
  - intros j Hj. apply Qclt_le_weak, xf_pos; auto.
Qed.
