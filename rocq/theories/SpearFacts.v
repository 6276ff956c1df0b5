(** Rank correlation: the bounds behind C44.  Pure arithmetic, no model. *)

From Coq Require Import QArith Qcanon ZArith List Bool Lia.
From Verif Require Import Val QcLib Spec2.
Import ListNotations.
Open Scope nat_scope.

Lemma qc_dec_sign (x y : Qc) : (x < y)%Qc \/ x = y \/ (y < x)%Qc.
Proof. destruct (Qclt_le_dec x y); auto. destruct (Qcle_lt_or_eq _ _ q); auto. Qed.

(** sign of x - y *)
Definition sg (x y : Qc) : Qc := if qcltb x y then (- (1))%Qc else if qcltb y x then 1%Qc else 0%Qc.
Lemma sg_lt x y : (x < y)%Qc -> sg x y = (- (1))%Qc.
Proof. intro H. unfold sg. rewrite (proj2 (qcltb_lt x y) H). auto. Qed.
Lemma sg_gt x y : (y < x)%Qc -> sg x y = 1%Qc.
Proof.
  intro H. unfold sg. destruct (qcltb x y) eqn:E.
  - apply qcltb_lt in E. exfalso. qlra.
  - rewrite (proj2 (qcltb_lt y x) H). auto.
Qed.
Lemma sg_eq x : sg x x = 0%Qc.
Proof. unfold sg. destruct (qcltb x x) eqn:E; auto. apply qcltb_lt in E. exfalso. qlra. Qed.
Lemma sg_anti x y : sg x y = (- sg y x)%Qc.
Proof.
  destruct (qc_dec_sign x y) as [H|[->|H]].
  - rewrite (sg_lt x y), (sg_gt y x); auto.
  - rewrite sg_eq. ring.
  - rewrite (sg_gt x y), (sg_lt y x); auto.
Qed.
Lemma sg_bound x y : (- (1) <= sg x y /\ sg x y <= 1)%Qc.
Proof. unfold sg. destruct (qcltb x y), (qcltb y x); split; qlra. Qed.

(** ** Landau's inequality for antisymmetric matrices with entries in [-1, 1] *)

Definition cubic (N : nat) : Qc := ((qn N * qn N * qn N - qn N) / qz 3)%Qc.
Lemma cubic_S N : cubic (S N) = (cubic N + qn N * qn N + qn N)%Qc.
Proof. unfold cubic. rewrite qn_S. change (qz 3) with (1 + 1 + 1)%Qc. field. discriminate. Qed.

Section Landau.
  Variable t : nat -> nat -> Qc.
  Hypothesis anti : forall i j, t i j = (- t j i)%Qc.
  Definition rs (N i : nat) : Qc := sumf 0 N (fun j => t i j).
  Definition S2 (N : nat) (f : nat -> nat -> Qc) : Qc := sumf 0 N (fun i => sumf 0 N (fun j => f i j)).

  Lemma sumf_swap a n b m (f : nat -> nat -> Qc) :
    sumf a n (fun i => sumf b m (fun j => f i j)) = sumf b m (fun j => sumf a n (fun i => f i j)).
  Proof.
    induction n.
    - rewrite sumf_0. symmetry. apply sumf_eq0_zero. auto.
    - rewrite sumf_Sr, IHn, <- sumf_add. apply sumf_ext. intros. rewrite sumf_Sr. auto.
  Qed.
  Lemma diag0 i : t i i = 0%Qc.
  Proof.
    assert (H := anti i i). assert (E : (qz 2 * t i i = 0)%Qc).
    { change (qz 2) with (1 + 1)%Qc. transitivity (t i i - - t i i)%Qc; [ring|]. rewrite <- H. ring. }
    apply Qcmult_integral in E as [E|E]; auto. discriminate.
  Qed.

  (** 2 sum a_i s_i = sum_ij t_ij (a_i - a_j) *)
  Lemma cross N (a : nat -> Qc) :
    ((1 + 1) * sumf 0 N (fun i => a i * rs N i) = S2 N (fun i j => t i j * (a i - a j)))%Qc.
  Proof.
    unfold S2.
    rewrite (sumf_ext 0 N (fun i => sumf 0 N (fun j => t i j * (a i - a j)))%Qc
              (fun i => a i * rs N i - sumf 0 N (fun j => t i j * a j))%Qc).
    2:{ intros i Hi. unfold rs. rewrite <- sumf_mulc, <- sumf_sub. apply sumf_ext. intros. ring. }
    rewrite sumf_sub. rewrite (sumf_swap 0 N 0 N (fun i j => t i j * a j)%Qc).
    rewrite (sumf_ext 0 N (fun j => sumf 0 N (fun i => t i j * a j)%Qc) (fun j => (- (1)) * (a j * rs N j))%Qc).
    2:{ intros j Hj. unfold rs. rewrite <- !sumf_mulc. apply sumf_ext. intros i Hi. rewrite (anti i j). ring. }
    rewrite sumf_mulc. ring.
  Qed.
  Lemma square N (a : nat -> Qc) : (sumf 0 N a * sumf 0 N a = S2 N (fun i j => a i * a j))%Qc.
  Proof.
    unfold S2. rewrite (sumf_ext 0 N (fun i => sumf 0 N (fun j => a i * a j))%Qc (fun i => sumf 0 N a * a i)%Qc).
    - rewrite sumf_mulc. reflexivity.
    - intros. rewrite sumf_mulc. ring.
  Qed.
  Lemma S2_add N f g : S2 N (fun i j => f i j + g i j)%Qc = (S2 N f + S2 N g)%Qc.
  Proof. unfold S2. rewrite <- sumf_add. apply sumf_ext. intros. apply sumf_add. Qed.
  Lemma S2_const N c : S2 N (fun _ _ => c) = (qn N * qn N * c)%Qc.
  Proof. unfold S2. rewrite (sumf_ext 0 N _ (fun _ => qn N * c)%Qc) by (intros; apply sumf_const). rewrite sumf_const. ring. Qed.

  Lemma step N : (sumf 0 (S N) (fun i => rs (S N) i * rs (S N) i)
    = sumf 0 N (fun i => rs N i * rs N i)
      + S2 N (fun i j => t i j * (t i N - t j N) + t i N * t j N)
      + sumf 0 N (fun i => t i N * t i N))%Qc.
  Proof.
    rewrite sumf_Sr. rewrite Nat.add_0_l.
    rewrite (sumf_ext 0 N (fun i => rs (S N) i * rs (S N) i)%Qc
              (fun i => rs N i * rs N i + ((1 + 1) * (t i N * rs N i) + t i N * t i N))%Qc).
    2:{ intros i Hi. unfold rs. rewrite sumf_Sr, Nat.add_0_l. ring. }
    rewrite sumf_add, sumf_add, sumf_mulc, (cross N (fun i => t i N)).
    assert (E : rs (S N) N = (- sumf 0 N (fun i => t i N))%Qc).
    { unfold rs. rewrite sumf_Sr, Nat.add_0_l, diag0.
      rewrite (sumf_ext 0 N (fun j => t N j) (fun j => (- (1)) * t j N)%Qc).
      - rewrite sumf_mulc. ring.
      - intros. rewrite (anti N i). ring. }
    rewrite E. rewrite S2_add. rewrite <- (square N (fun i => t i N)). ring.
  Qed.

  Hypothesis bound : forall i j, (- (1) <= t i j /\ t i j <= 1)%Qc.

  Lemma term_le (u a b : Qc) : (- (1) <= u)%Qc -> (u <= 1)%Qc -> (- (1) <= a)%Qc -> (a <= 1)%Qc -> (- (1) <= b)%Qc -> (b <= 1)%Qc ->
    (u * (a - b) + a * b <= 1)%Qc.
  Proof.
    intros U1 U2 A1 A2 B1 B2.
    destruct (Qclt_le_dec a b) as [L|L].
    - assert (H : (0 <= (1 + a) * (1 - b))%Qc) by (apply qc_mul_nonneg; qlra).
      assert (H2 : (0 <= (1 + u) * (b - a))%Qc) by (apply qc_mul_nonneg; qlra).
      assert (Q : (u * (a - b) + a * b = 1 - (1 + a) * (1 - b) - (1 + u) * (b - a))%Qc) by ring.
      rewrite Q. set (x := ((1 + a) * (1 - b))%Qc) in *. set (y := ((1 + u) * (b - a))%Qc) in *. qlra.
    - assert (H : (0 <= (1 - a) * (1 + b))%Qc) by (apply qc_mul_nonneg; qlra).
      assert (H2 : (0 <= (1 - u) * (a - b))%Qc) by (apply qc_mul_nonneg; qlra).
      assert (Q : (u * (a - b) + a * b = 1 - (1 - a) * (1 + b) - (1 - u) * (a - b))%Qc) by ring.
      rewrite Q. set (x := ((1 - a) * (1 + b))%Qc) in *. set (y := ((1 - u) * (a - b))%Qc) in *. qlra.
  Qed.
  Lemma sq_le1 a : (- (1) <= a)%Qc -> (a <= 1)%Qc -> (a * a <= 1)%Qc.
  Proof.
    intros A B. assert (H : (0 <= (1 - a) * (1 + a))%Qc) by (apply qc_mul_nonneg; qlra).
    assert (Q : (a * a = 1 - (1 - a) * (1 + a))%Qc) by ring. rewrite Q.
    set (x := ((1 - a) * (1 + a))%Qc) in *. qlra.
  Qed.

  Theorem landau N : (sumf 0 N (fun i => rs N i * rs N i) <= cubic N)%Qc.
  Proof.
    induction N as [|N IH].
    - rewrite sumf_0. vm_compute. discriminate.
    - rewrite step, cubic_S.
      assert (A : (S2 N (fun i j => t i j * (t i N - t j N) + t i N * t j N) <= qn N * qn N)%Qc).
      { replace (qn N * qn N)%Qc with (S2 N (fun _ _ => 1%Qc)) by (rewrite S2_const; ring).
        unfold S2. apply sumf_le. intros i Hi. apply sumf_le. intros j Hj. apply term_le; apply bound. }
      assert (B : (sumf 0 N (fun i => t i N * t i N) <= qn N)%Qc).
      { replace (qn N) with (sumf 0 N (fun _ => 1%Qc)) by (rewrite sumf_const; ring).
        apply sumf_le. intros. apply sq_le1; apply bound. }
      set (x := S2 N _) in *. set (y := sumf 0 N (fun i => t i N * t i N)%Qc) in *.
      set (z := sumf 0 N (fun i => rs N i * rs N i)%Qc) in *. set (w := (qn N * qn N)%Qc) in *. qlra.
  Qed.
  Theorem landau_eq N :
    (forall i j k, i < k < N -> j < k -> (t i j * (t i k - t j k) + t i k * t j k = 1 /\ t i k * t i k = 1)%Qc) ->
    (sumf 0 N (fun i => rs N i * rs N i) = cubic N)%Qc.
  Proof.
    induction N as [|N IH]; intro H.
    - rewrite sumf_0. apply Qc_is_canon. reflexivity.
    - rewrite step, cubic_S, IH by (intros; apply H; lia).
      unfold S2. rewrite (sumf_ext 0 N _ (fun _ => qn N * 1)%Qc).
      2:{ intros i Hi. rewrite (sumf_ext 0 N _ (fun _ => 1%Qc)) by (intros j Hj; apply (H i j N); lia).
          rewrite sumf_const. auto. }
      rewrite sumf_const. rewrite (sumf_ext 0 N (fun i => t i N * t i N)%Qc (fun _ => 1%Qc)).
      2:{ intros i Hi. apply (H i i N); lia. }
      rewrite sumf_const. ring.
  Qed.
End Landau.

(** ** Ranks *)
Lemma filter_cons_len {A} (p : A -> bool) a l : qn (length (filter p (a :: l))) = ((if p a then 1 else 0) + qn (length (filter p l)))%Qc.
Proof. simpl. destruct (p a); simpl length; [rewrite qn_S|]; ring. Qed.

Lemma rank_sg_gen (x : nat -> Qc) v : forall N a,
  (qz 2 * qn (length (filter (fun j => qcltb (x j) v) (seq a N)))
   + qn (length (filter (fun j => qceqb (x j) v) (seq a N)))
   = qn N + sumf a N (fun j => sg v (x j)))%Qc.
Proof.
  induction N as [|N IH]; intro a; cbn [seq].
  - reflexivity.
  - rewrite !filter_cons_len, sumf_Sl, qn_S. specialize (IH (S a)).
    set (A := qn (length (filter (fun j => qcltb (x j) v) (seq (S a) N)))) in *.
    set (B := qn (length (filter (fun j => qceqb (x j) v) (seq (S a) N)))) in *.
    set (D := sumf (S a) N _) in *.
    assert (E : (qz 2 * (if qcltb (x a) v then 1 else 0) + (if qceqb (x a) v then 1 else 0) = 1 + sg v (x a))%Qc).
    { destruct (qc_dec_sign (x a) v) as [H|[H|H]].
      - rewrite (sg_gt v (x a)) by auto. rewrite (proj2 (qcltb_lt _ _) H).
        destruct (qceqb_spec (x a) v) as [e|]; [|reflexivity]. rewrite e in H. exfalso. qlra.
      - rewrite H. rewrite sg_eq. destruct (qcltb v v) eqn:Q; [apply qcltb_lt in Q; exfalso; qlra|].
        rewrite qceqb_refl. reflexivity.
      - rewrite (sg_lt v (x a)) by auto. destruct (qcltb (x a) v) eqn:Q; [apply qcltb_lt in Q; exfalso; qlra|].
        destruct (qceqb_spec (x a) v) as [e|]; [rewrite e in H; exfalso; qlra|]. reflexivity. }
    change (qz 2) with (1 + 1)%Qc in *.
    set (P := (if qcltb (x a) v then 1 else 0)%Qc) in *. set (Q := (if qceqb (x a) v then 1 else 0)%Qc) in *.
    transitivity ((1 + 1) * P + Q + ((1 + 1) * A + B))%Qc; [ring|]. rewrite E, IH. ring.
Qed.
Lemma rank_sg x N i : (avg_rank x N i = (qn N + 1 + sumf 0 N (fun j => sg (x i) (x j))) / qz 2)%Qc.
Proof.
  unfold avg_rank. assert (H := rank_sg_gen x (x i) N 0).
  set (A := qn (length (filter (fun j => qcltb (x j) (x i)) (seq 0 N)))) in *.
  set (B := qn (length (filter (fun j => qceqb (x j) (x i)) (seq 0 N)))) in *.
  set (D := sumf 0 N _) in *.
  transitivity ((qz 2 * A + B + 1) / qz 2)%Qc; [field; discriminate|].
  rewrite H. apply (f_equal2 Qcdiv); auto. ring.
Qed.

Section Corr.
  Variables x y : nat -> Qc.
  Definition td (i j : nat) : Qc := ((sg (x i) (x j) - sg (y i) (y j)) / qz 2)%Qc.
  Lemma td_anti i j : td i j = (- td j i)%Qc.
  Proof. unfold td. rewrite (sg_anti (x i)), (sg_anti (y i)). field. discriminate. Qed.
  Lemma half_bound a b : (- (1) <= a)%Qc -> (a <= 1)%Qc -> (- (1) <= b)%Qc -> (b <= 1)%Qc ->
    (- (1) <= (a - b) / qz 2)%Qc /\ ((a - b) / qz 2 <= 1)%Qc.
  Proof.
    intros. split.
    - apply qc_le_div; [reflexivity|]. change (qz 2) with (1 + 1)%Qc. qlra.
    - apply qc_div_le; [reflexivity|]. change (qz 2) with (1 + 1)%Qc. qlra.
  Qed.
  Lemma td_bound i j : (- (1) <= td i j /\ td i j <= 1)%Qc.
  Proof. unfold td. apply half_bound; apply sg_bound. Qed.
  Lemma rank_diff N i : (avg_rank x N i - avg_rank y N i = rs td N i)%Qc.
  Proof.
    rewrite !rank_sg. unfold rs, td. rewrite (sumf_ext 0 N (fun j => _ / _)%Qc
      (fun j => (1 / qz 2) * (sg (x i) (x j) - sg (y i) (y j)))%Qc) by (intros; field; discriminate).
    rewrite sumf_mulc, sumf_sub. field. discriminate.
  Qed.
  Definition ssd (N : nat) : Qc :=
    sumf 0 N (fun i => (avg_rank x N i - avg_rank y N i) * (avg_rank x N i - avg_rank y N i))%Qc.
  Lemma ssd_rs N : ssd N = sumf 0 N (fun i => rs td N i * rs td N i)%Qc.
  Proof. apply sumf_ext. intros. rewrite rank_diff. auto. Qed.
  Lemma ssd_le N : (ssd N <= cubic N)%Qc.
  Proof. rewrite ssd_rs. apply landau; [apply td_anti|apply td_bound]. Qed.
  Lemma ssd_nonneg N : (0 <= ssd N)%Qc.
  Proof. apply sumf_nonneg. intros. apply qc_sq_nonneg. Qed.
  Lemma ssd_agree N : (forall i j, i < N -> j < N -> ((x i < x j)%Qc <-> (y i < y j)%Qc)) -> ssd N = 0%Qc.
  Proof.
    intro H. rewrite ssd_rs. apply sumf_eq0_zero. intros i Hi.
    assert (Z : rs td N i = 0%Qc); [|rewrite Z; ring].
    unfold rs. apply sumf_eq0_zero. intros j Hj. unfold td.
    assert (E : sg (x i) (x j) = sg (y i) (y j)); [|rewrite E; field; discriminate].
    destruct (qc_dec_sign (x i) (x j)) as [L|[L|L]].
    - rewrite (sg_lt (x i)) by auto. symmetry. apply sg_lt. apply H; auto; lia.
    - rewrite L, sg_eq. destruct (qc_dec_sign (y i) (y j)) as [M|[M|M]].
      + exfalso. apply H in M; try lia. rewrite L in M. qlra.
      + rewrite M, sg_eq. auto.
      + exfalso. apply H in M; try lia. rewrite L in M. qlra.
    - rewrite (sg_gt (x i)) by auto. symmetry. apply sg_gt. apply H; auto; lia.
  Qed.
  Lemma ssd_opposite N : (forall i j, i < N -> j < N -> i <> j -> (x i < x j)%Qc \/ (x j < x i)%Qc) ->
    (forall i j, i < N -> j < N -> ((x i < x j)%Qc <-> (y j < y i)%Qc)) -> ssd N = cubic N.
  Proof.
    intros D H. rewrite ssd_rs.
    assert (T : forall i j, i < N -> j < N -> td i j = sg (x i) (x j)).
    { intros i j Hi Hj. unfold td. rewrite (sg_anti (y i)).
      assert (E : sg (y j) (y i) = sg (x i) (x j)); [|rewrite E; change (qz 2) with (1 + 1)%Qc; field; discriminate].
      destruct (Nat.eq_dec i j) as [->|Hij]; [rewrite !sg_eq; auto|].
      destruct (D i j Hi Hj Hij) as [L|L].
      - rewrite (sg_lt (x i)) by auto. apply sg_lt. apply H; auto.
      - rewrite (sg_gt (x i)) by auto. apply sg_gt. apply H; auto. }
    apply landau_eq; [apply td_anti|]. intros i j k Hi Hj. rewrite !T by lia.
    destruct (D i k) as [A|A]; try lia; destruct (D j k) as [B|B]; try lia.
    - rewrite (sg_lt (x i) (x k)), (sg_lt (x j) (x k)) by auto. split; ring.
    - rewrite (sg_lt (x i) (x k)), (sg_gt (x j) (x k)) by auto.
      rewrite (sg_lt (x i) (x j)) by qlra. split; ring.
    - rewrite (sg_gt (x i) (x k)), (sg_lt (x j) (x k)) by auto.
      rewrite (sg_gt (x i) (x j)) by qlra. split; ring.
    - rewrite (sg_gt (x i) (x k)), (sg_gt (x j) (x k)) by auto. split; ring.
  Qed.

  Definition spear (N : nat) : Qc := (1 - qz 6 * (ssd N / (qn N * qn N * qn N - qn N)))%Qc.
  Lemma den_pos N : 2 <= N -> (0 < qn N * qn N * qn N - qn N)%Qc.
  Proof.
    intro H. assert (P : (0 < qn N * ((qn N - 1) * (qn N + 1)))%Qc).
    { assert (A : (qn 1 < qn N)%Qc) by (apply qn_lt; lia). rewrite qn_1 in A.
      apply qc_mul_pos; [qlra|]. apply qc_mul_pos; qlra. }
    replace (qn N * qn N * qn N - qn N)%Qc with (qn N * ((qn N - 1) * (qn N + 1)))%Qc by ring. auto.
  Qed.
  Lemma spear_cubic N : 2 <= N -> spear N = (1 - qz 2 * (ssd N / cubic N))%Qc.
  Proof.
    intro H. apply den_pos in H. apply qc_pos_neq in H. unfold spear, cubic.
    change (qz 6) with (qz 2 * qz 3)%Qc. field. split; auto; try discriminate.
  Qed.
  Lemma cubic_pos N : 2 <= N -> (0 < cubic N)%Qc.
  Proof. intro H. unfold cubic. apply qc_div_pos; [apply den_pos; auto|reflexivity]. Qed.
  Theorem spear_bounds N : 2 <= N -> (- (1) <= spear N /\ spear N <= 1)%Qc.
  Proof.
    intro H. rewrite spear_cubic by auto. assert (P := cubic_pos N H).
    assert (A : (0 <= ssd N / cubic N)%Qc) by (apply qc_div_nonneg; auto; apply ssd_nonneg).
    assert (B : (ssd N / cubic N <= 1)%Qc).
    { apply qc_div_le; auto. assert (L := ssd_le N). rewrite Qcmult_1_l || rewrite Qcmult_1_r. auto. }
    set (r := (ssd N / cubic N)%Qc) in *. change (qz 2) with (1 + 1)%Qc. split; qlra.
  Qed.
  Theorem spear_agree N : (forall i j, i < N -> j < N -> ((x i < x j)%Qc <-> (y i < y j)%Qc)) -> spear N = 1%Qc.
  Proof. intro H. unfold spear. rewrite ssd_agree by auto. unfold Qcdiv. ring. Qed.
  Theorem spear_opposite N : 2 <= N -> (forall i j, i < N -> j < N -> i <> j -> (x i < x j)%Qc \/ (x j < x i)%Qc) ->
    (forall i j, i < N -> j < N -> ((x i < x j)%Qc <-> (y j < y i)%Qc)) -> spear N = (- (1))%Qc.
  Proof.
    intros L D H. rewrite spear_cubic by auto. rewrite ssd_opposite by auto.
    rewrite qc_div_self by (apply qc_pos_neq, cubic_pos; auto). reflexivity.
  Qed.
End Corr.
