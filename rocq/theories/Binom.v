(** Facts behind the calendar-year statistic: binomial coefficients and the moments
    of min(S, n - S). *)

From Coq Require Import QArith Qcanon ZArith List Bool Lia Arith.
From Verif Require Import Val QcLib Frame Triangle A2A Base Mack Diag Spec2.
Import ListNotations.
Open Scope list_scope.
Open Scope nat_scope.

Lemma choose_binom n : forall k, choose n k = binom n k.
Proof.
  induction n; intros [|k]; simpl; auto. rewrite !IHn. lia.
Qed.
Lemma binom_0_r n : binom n 0 = 1. Proof. destruct n; auto. Qed.
Lemma binom_S n k : binom (S n) (S k) = binom n k + binom n (S k). Proof. auto. Qed.
Lemma binom_gt n : forall k, n < k -> binom n k = 0.
Proof. induction n; intros [|k] H; try lia; auto. rewrite binom_S, !IHn by lia. auto. Qed.
Lemma binom_nn n : binom n n = 1.
Proof. induction n; auto. rewrite binom_S, IHn, binom_gt by lia. auto. Qed.
Lemma binom_sym n : forall k, k <= n -> binom n k = binom n (n - k).
Proof.
  induction n; intros k H; [replace k with 0 by lia; auto|].
  destruct k as [|k]; [rewrite Nat.sub_0_r, binom_nn; apply binom_0_r|].
  destruct (Nat.eq_dec k n) as [->|]; [rewrite Nat.sub_diag, binom_0_r; apply binom_nn|].
  replace (S n - S k) with (S (n - S k)) by lia. rewrite !binom_S.
  rewrite (IHn k), (IHn (S k)) by lia. replace (S (n - S k)) with (n - k) by lia. lia.
Qed.
Lemma binom_absorb n : forall k, S k * binom (S n) (S k) = S n * binom n k.
Proof.
  induction n; intro k.
  - rewrite binom_S. destruct k; simpl; lia.
  - rewrite binom_S. destruct k as [|k].
    + rewrite !binom_0_r. specialize (IHn 0). rewrite binom_0_r in IHn. lia.
    + assert (H1 := IHn k). assert (H2 := IHn (S k)).
      rewrite (binom_S n k) at 1. rewrite Nat.mul_add_distr_l.
      rewrite (binom_S n k) in *. lia.
Qed.

(** Sums over nat of a function, in Z. *)
Fixpoint zsum (n : nat) (f : nat -> Z) : Z := match n with O => 0%Z | S k => (zsum k f + f k)%Z end.
Lemma zsum_ext n f g : (forall i, i < n -> f i = g i) -> zsum n f = zsum n g.
Proof. induction n; simpl; intro H; auto. rewrite IHn by (intros; apply H; lia). rewrite H by lia. lia. Qed.
Lemma zsum_add n f g : zsum n (fun i => f i + g i)%Z = (zsum n f + zsum n g)%Z.
Proof. induction n; simpl; lia. Qed.
Lemma zsum_mul n c f : zsum n (fun i => c * f i)%Z = (c * zsum n f)%Z.
Proof. induction n; simpl; lia. Qed.
Lemma zsum_Sl n f : zsum (S n) f = (f 0%nat + zsum n (fun i => f (S i)))%Z.
Proof. induction n; simpl in *; lia. Qed.

Definition bz n k : Z := Z.of_nat (binom n k).
(** Expectation-like sum. *)
Definition E (n : nat) (g : nat -> Z) : Z := zsum (S n) (fun s => bz n s * g s)%Z.

Lemma E_step n g : E (S n) g = E n (fun s => (g s + g (S s))%Z).
Proof.
  unfold E. rewrite zsum_Sl. change (bz (S n) 0) with 1%Z.
  rewrite (zsum_ext (S n) _ (fun i => bz n i * g (S i) + bz n (S i) * g (S i))%Z).
  2:{ intros i Hi. unfold bz. rewrite binom_S. lia. }
  rewrite zsum_add.
  rewrite (zsum_ext (S n) (fun s => bz n s * (g s + g (S s)))%Z (fun s => bz n s * g s + bz n s * g (S s))%Z) by (intros; lia).
  rewrite zsum_add.
  assert (H : zsum (S n) (fun s => bz n s * g s)%Z = (g 0%nat + zsum (S n) (fun i => bz n (S i) * g (S i)))%Z).
  { rewrite zsum_Sl. unfold bz at 1. rewrite binom_0_r. 
    cbn [zsum]. unfold bz at 3. rewrite binom_gt by lia. lia. }
  lia.
Qed.
Lemma E_ext n f g : (forall s, s <= n -> f s = g s) -> E n f = E n g.
Proof. intro H. apply zsum_ext. intros. rewrite H by lia. auto. Qed.
Lemma E_add n f g : E n (fun s => f s + g s)%Z = (E n f + E n g)%Z.
Proof. unfold E. rewrite <- zsum_add. apply zsum_ext. intros. lia. Qed.
Lemma E_mul n c f : E n (fun s => c * f s)%Z = (c * E n f)%Z.
Proof. unfold E. rewrite <- zsum_mul. apply zsum_ext. intros. lia. Qed.
Lemma E_1 n : E n (fun _ => 1%Z) = (2 ^ Z.of_nat n)%Z.
Proof.
  induction n; auto. rewrite E_step. replace (Z.of_nat (S n)) with (Z.of_nat n + 1)%Z by lia. 
  rewrite Z.pow_add_r by lia. rewrite <- IHn. rewrite <- (Z.mul_comm 2), <- E_mul. apply E_ext. intros. lia.
Qed.
Lemma E_delta n k : k <= n -> E n (fun s => if Nat.eqb s k then 1 else 0)%Z = bz n k.
Proof.
  intro H. unfold E. assert (G : forall N, k < N -> zsum N (fun s => bz n s * (if Nat.eqb s k then 1 else 0))%Z = bz n k).
  { induction N as [|N IH]; [lia|]. intro L. cbn [zsum]. destruct (Nat.eq_dec k N) as [->|Hk].
    - rewrite Nat.eqb_refl. rewrite (zsum_ext N _ (fun _ => 0 * 0)%Z).
      + rewrite zsum_mul. lia.
      + intros i Hi. destruct (Nat.eqb_spec i N); lia.
    - rewrite IH by lia. destruct (Nat.eqb_spec N k); lia. }
  apply G. lia.
Qed.

Definition mn (n s : nat) : Z := Z.of_nat (Nat.min s (n - s)).
Definition G1 n := E n (mn n).
Definition G2 n := E n (fun s => mn n s * (mn n s - 1))%Z.

Definition even_part (n : nat) : Z := if Nat.even n then bz n (n / 2) else 0%Z.

Lemma half_cases n s : s <= n -> (2 * s < n) \/ (2 * s = n) \/ (n < 2 * s). Proof. lia. Qed.

Lemma E_even n c : E n (fun s => if Nat.eqb (2 * s) n then c else 0)%Z = (c * even_part n)%Z.
Proof.
  unfold even_part. destruct (Nat.even n) eqn:Ev.
  - apply Nat.even_spec in Ev as (k & ->). replace (2 * k / 2) with k by (rewrite Nat.mul_comm, Nat.div_mul; lia).
    rewrite <- E_delta by lia. rewrite <- E_mul. apply E_ext. intros s Hs.
    destruct (Nat.eqb_spec (2 * s) (2 * k)), (Nat.eqb_spec s k); lia.
  - rewrite (E_ext n _ (fun _ => 0 * 0)%Z); [rewrite E_mul; lia|].
    intros s Hs. destruct (Nat.eqb_spec (2 * s) n) as [<-|]; [|lia].
    exfalso. rewrite Nat.even_mul in Ev. discriminate.
Qed.

Lemma G1_step n : G1 (S n) = (2 * G1 n + 2 ^ Z.of_nat n - even_part n)%Z.
Proof.
  unfold G1. rewrite E_step.
  rewrite (E_ext n _ (fun s => 2 * mn n s + (1 + (if Nat.eqb (2 * s) n then (-1) else 0)))%Z).
  2:{ intros s Hs. unfold mn. destruct (Nat.eqb_spec (2 * s) n); lia. }
  rewrite E_add, E_add, E_mul, E_1, E_even. lia.
Qed.
Lemma G2_step n : G2 (S n) = (2 * G2 n + 2 * G1 n - Z.of_nat n * even_part n)%Z.
Proof.
  unfold G2, G1. rewrite E_step.
  rewrite (E_ext n _ (fun s => 2 * (mn n s * (mn n s - 1)) + (2 * mn n s + (if Nat.eqb (2 * s) n then - Z.of_nat n else 0)))%Z).
  2:{ intros s Hs. unfold mn. destruct (Nat.eqb_spec (2 * s) n) as [<-|H].
      - replace (Nat.min s (S (2 * s) - s)) with s by lia. replace (Nat.min (S s) (S (2 * s) - S s)) with s by lia.
        replace (Nat.min s (2 * s - s)) with s by lia. nia.
      - destruct (half_cases n s Hs) as [L|[L|L]]; [|lia|].
        + replace (Nat.min s (S n - s)) with s by lia. replace (Nat.min (S s) (S n - S s)) with (S s) by lia.
          replace (Nat.min s (n - s)) with s by lia. nia.
        + replace (Nat.min s (S n - s)) with (S (n - s)) by lia. replace (Nat.min (S s) (S n - S s)) with (n - s) by lia.
          replace (Nat.min s (n - s)) with (n - s) by lia. nia. }
  rewrite E_add, E_add, !E_mul, E_even. lia.
Qed.

(** Closed forms. *)
Definition cen (m : nat) : Z := bz (2 * m) m.
Definition odd_ (m : nat) : Z := bz (2 * m + 1) m.
Lemma odd_sym m : bz (2 * m + 1) (S m) = odd_ m.
Proof. unfold odd_, bz. rewrite (binom_sym _ (S m)) by lia. do 2 f_equal. lia. Qed.
Lemma cen_S m : cen (S m) = (2 * odd_ m)%Z.
Proof.
  unfold cen. replace (2 * S m) with (S (2 * m + 1)) by lia. unfold bz at 1. rewrite binom_S, Nat2Z.inj_add.
  change (Z.of_nat (binom (2 * m + 1) m)) with (odd_ m). change (Z.of_nat (binom (2 * m + 1) (S m))) with (bz (2 * m + 1) (S m)).
  rewrite odd_sym. lia.
Qed.
Lemma odd_abs m : (Z.of_nat (S m) * odd_ m = Z.of_nat (2 * m + 1) * cen m)%Z.
Proof.
  rewrite <- odd_sym. unfold cen, bz. rewrite <- !Nat2Z.inj_mul. f_equal.
  replace (2 * m + 1) with (S (2 * m)) by lia. rewrite binom_absorb. auto.
Qed.
Lemma even_part_even m : even_part (2 * m) = cen m.
Proof.
  unfold even_part. rewrite (proj2 (Nat.even_spec (2 * m))) by (exists m; auto).
  rewrite Nat.mul_comm, Nat.div_mul by lia. rewrite Nat.mul_comm. auto.
Qed.
Lemma even_part_odd m : even_part (2 * m + 1) = 0%Z.
Proof.
  unfold even_part. destruct (Nat.even (2 * m + 1)) eqn:Ev; auto.
  apply Nat.even_spec in Ev as (k & E'). lia.
Qed.

Lemma closed m :
  (G1 (2 * m + 1) = Z.of_nat (2 * m + 1) * (4 ^ Z.of_nat m - cen m) /\
   G2 (2 * m + 1) = Z.of_nat (2 * m + 1) * Z.of_nat m * 4 ^ Z.of_nat m
                    - Z.of_nat (2 * m + 1) * Z.of_nat (2 * m) * cen m)%Z /\
  (G1 (2 * m + 2) = Z.of_nat (2 * m + 2) * (2 * 4 ^ Z.of_nat m - odd_ m) /\
   G2 (2 * m + 2) = Z.of_nat (2 * m + 2) * Z.of_nat (2 * m + 1) * (4 ^ Z.of_nat m - odd_ m))%Z.
Proof.
  assert (Step : forall m, 
   (G1 (2 * m + 1) = Z.of_nat (2 * m + 1) * (4 ^ Z.of_nat m - cen m) /\
   G2 (2 * m + 1) = Z.of_nat (2 * m + 1) * Z.of_nat m * 4 ^ Z.of_nat m
                    - Z.of_nat (2 * m + 1) * Z.of_nat (2 * m) * cen m)%Z ->
   (G1 (2 * m + 2) = Z.of_nat (2 * m + 2) * (2 * 4 ^ Z.of_nat m - odd_ m) /\
   G2 (2 * m + 2) = Z.of_nat (2 * m + 2) * Z.of_nat (2 * m + 1) * (4 ^ Z.of_nat m - odd_ m))%Z).
  { clear m. intros m [H1 H2]. assert (A := odd_abs m). replace (2 * m + 2) with (S (2 * m + 1)) by lia.
    rewrite G1_step, G2_step, even_part_odd, H1, H2.
    replace (2 ^ Z.of_nat (2 * m + 1))%Z with (2 * 4 ^ Z.of_nat m)%Z.
    2:{ replace (Z.of_nat (2 * m + 1)) with (2 * Z.of_nat m + 1)%Z by lia. rewrite Z.pow_add_r, Z.pow_mul_r by lia.
        change (2 ^ 2)%Z with 4%Z. lia. }
    set (p := (4 ^ Z.of_nat m)%Z) in *. set (c := cen m) in *. set (o := odd_ m) in *.
    replace (Z.of_nat (S (2 * m + 1))) with (2 * Z.of_nat m + 2)%Z by lia.
    replace (Z.of_nat (2 * m + 1)) with (2 * Z.of_nat m + 1)%Z in * by lia.
    replace (Z.of_nat (S m)) with (Z.of_nat m + 1)%Z in A by lia.
    replace (Z.of_nat (2 * m)) with (2 * Z.of_nat m)%Z by lia.
    set (z := Z.of_nat m) in *. clearbody p c o z.
    split; [nia|]. apply Z.sub_move_0_r.
    transitivity (2 * (2 * z + 1) * ((z + 1) * o - (2 * z + 1) * c))%Z; [ring|]. rewrite A. ring. }
  induction m as [|m IH].
  - split; [split; reflexivity|]. apply Step. split; reflexivity.
  - assert (Q : (G1 (2 * S m + 1) = Z.of_nat (2 * S m + 1) * (4 ^ Z.of_nat (S m) - cen (S m)) /\
   G2 (2 * S m + 1) = Z.of_nat (2 * S m + 1) * Z.of_nat (S m) * 4 ^ Z.of_nat (S m)
                    - Z.of_nat (2 * S m + 1) * Z.of_nat (2 * S m) * cen (S m))%Z); [|split; [exact Q|apply Step; exact Q]].
    destruct IH as [_ [H1 H2]]. replace (2 * S m + 1) with (S (2 * m + 2)) by lia. rewrite G1_step, G2_step.
    replace (2 * m + 2) with (2 * S m) in * by lia. rewrite even_part_even, H1, H2, cen_S.
    replace (2 ^ Z.of_nat (2 * S m))%Z with (4 * 4 ^ Z.of_nat m)%Z.
    2:{ replace (Z.of_nat (2 * S m)) with (2 * Z.of_nat m + 2)%Z by lia. rewrite Z.pow_add_r, Z.pow_mul_r by lia.
        change (2 ^ 2)%Z with 4%Z. lia. }
    replace (4 ^ Z.of_nat (S m))%Z with (4 * 4 ^ Z.of_nat m)%Z.
    2:{ replace (Z.of_nat (S m)) with (Z.of_nat m + 1)%Z by lia. rewrite Z.pow_add_r by lia. lia. }
    set (p := (4 ^ Z.of_nat m)%Z) in *. set (o := odd_ m) in *.
    replace (Z.of_nat (S (2 * S m))) with (2 * Z.of_nat m + 3)%Z by lia.
    replace (Z.of_nat (2 * S m)) with (2 * Z.of_nat m + 2)%Z by lia.
    replace (Z.of_nat (2 * m + 1)) with (2 * Z.of_nat m + 1)%Z by lia.
    replace (Z.of_nat (S m)) with (Z.of_nat m + 1)%Z by lia.
    set (z := Z.of_nat m) in *. clearbody p o z. split; ring.
Qed.

(** Moments of min(S, n - S), S ~ Binomial(n, 1/2), against [e_z], [v_z]. *)
Lemma qn_z n : qn n = qz (Z.of_nat n). Proof. reflexivity. Qed.
Lemma qz_sub a b : qz (a - b) = (qz a - qz b)%Qc.
Proof. unfold Z.sub. rewrite qz_add, qz_opp. reflexivity. Qed.
Lemma q2pow_pos n : (0 < q2pow n)%Qc.
Proof.
  unfold q2pow. induction n; [exact qc_0_lt_1|]. simpl. apply qc_mul_pos; auto. reflexivity.
Qed.
Lemma q2pow_z n : q2pow n = qz (2 ^ Z.of_nat n).
Proof.
  unfold q2pow. induction n; [reflexivity|]. cbn [Qcpower]. rewrite IHn, <- qz_mul. f_equal.
  rewrite Nat2Z.inj_succ, Z.pow_succ_r by lia. auto.
Qed.
Lemma sumf_zsum n g : sumf 0 n (fun s => qz (g s)) = qz (zsum n g).
Proof.
  induction n; [reflexivity|]. rewrite sumf_Sr, IHn. cbn [zsum]. rewrite <- qz_add. auto.
Qed.
Lemma mean_E n g : mean_half n (fun s => qz (g s)) = (qz (E n g) / q2pow n)%Qc.
Proof.
  unfold mean_half, E. rewrite <- sumf_zsum.
  assert (H := q2pow_pos n). apply qc_pos_neq in H.
  unfold Qcdiv at 2. rewrite Qcmult_comm, <- sumf_mulc. apply sumf_ext. intros s Hs.
  rewrite choose_binom, qz_mul. change (qz 2 ^ n)%Qc with (q2pow n). unfold bz. rewrite <- qn_z. field; auto.
Qed.
Lemma mean_half_ext n f g : (forall s, s <= n -> f s = g s) -> mean_half n f = mean_half n g.
Proof. intro H. apply sumf_ext. intros s Hs. rewrite H by lia. auto. Qed.
Lemma mean_half_add n f g : mean_half n (fun s => f s + g s)%Qc = (mean_half n f + mean_half n g)%Qc.
Proof. unfold mean_half. rewrite <- sumf_add. apply sumf_ext. intros. ring. Qed.
Lemma mean_half_mul n c f : mean_half n (fun s => c * f s)%Qc = (c * mean_half n f)%Qc.
Proof. unfold mean_half. rewrite <- sumf_mulc. apply sumf_ext. intros. ring. Qed.
Lemma mean_half_1 n : mean_half n (fun _ => 1%Qc) = 1%Qc.
Proof.
  change 1%Qc with (qz 1). rewrite (mean_E n (fun _ => 1%Z)), E_1, <- q2pow_z.
  apply qc_div_self. apply qc_pos_neq, q2pow_pos.
Qed.
Lemma var_half_eq n g : var_half n g = (mean_half n (fun s => g s * g s) - mean_half n g * mean_half n g)%Qc.
Proof.
  unfold var_half. set (mu := mean_half n g).
  rewrite (mean_half_ext n _ (fun s => g s * g s + ((- (qz 2 * mu)) * g s + (mu * mu) * 1))%Qc).
  2:{ intros. change (qz 2) with (1 + 1)%Qc. ring. }
  rewrite mean_half_add, mean_half_add, !mean_half_mul, mean_half_1. fold mu.
  change (qz 2) with (1 + 1)%Qc. ring.
Qed.

(** (n-1 choose floor((n-1)/2)) in either parity. *)
Lemma e_z_G1 n : 1 <= n -> e_z n = (qz (G1 n) / q2pow n)%Qc /\
  (qz (G2 n) / q2pow n)%Qc =
  (qn n * (qn n - 1) / qz 4 - qn (binom (n - 1) ((n - 1) / 2)) * (qn n * (qn n - 1) / q2pow n))%Qc.
Proof.
  intro Hn. assert (P := q2pow_pos n). apply qc_pos_neq in P.
  destruct (Nat.Even_or_Odd n) as [[m E']|[m E']].
  - destruct m as [|m]; [lia|]. replace (2 * S m) with (2 * m + 2) in E' by lia.
    destruct (closed m) as [_ [H1 H2]]. rewrite <- E' in H1, H2. unfold e_z. rewrite H1, H2.
    replace ((n - 1) / 2) with m by (apply Nat.div_unique with 1; lia).
    replace (n - 1) with (2 * m + 1) by lia. change (binom (2 * m + 1) m) with (binom (2 * m + 1) m).
    change (qn (binom (2 * m + 1) m)) with (qz (odd_ m)). rewrite !qz_mul, !qz_sub, !qz_mul.
    assert (Q : q2pow n = (qz 4 * qz (4 ^ Z.of_nat m))%Qc).
    { rewrite q2pow_z, <- qz_mul. f_equal. replace (Z.of_nat n) with (2 * Z.of_nat m + 2)%Z by lia.
      rewrite Z.pow_add_r, Z.pow_mul_r by lia. change (2 ^ 2)%Z with 4%Z. lia. }
    rewrite Q in P |- *. change (qz 4) with (qz 2 * qz 2)%Qc in *. set (p := qz (4 ^ Z.of_nat m)) in *.
    rewrite qn_z. replace (Z.of_nat (2 * m + 1)) with (Z.of_nat n - 1)%Z by lia. rewrite qz_sub.
    replace (Z.of_nat (2 * m + 2)) with (Z.of_nat n) by lia.
    change (qz 1) with 1%Qc. assert (qz 2 <> 0%Qc) by discriminate.
    assert (p <> 0%Qc) by (intro Z0; apply P; rewrite Z0; ring).
    split; field; auto.
  - destruct (closed m) as [[H1 H2] _]. rewrite <- E' in H1, H2. unfold e_z. rewrite H1, H2.
    replace ((n - 1) / 2) with m by (apply Nat.div_unique with 0; lia).
    replace (n - 1) with (2 * m) by lia.
    change (qn (binom (2 * m) m)) with (qz (cen m)). rewrite !qz_sub, !qz_mul, !qz_sub.
    assert (Q : q2pow n = (qz 2 * qz (4 ^ Z.of_nat m))%Qc).
    { rewrite q2pow_z, <- qz_mul. f_equal. replace (Z.of_nat n) with (2 * Z.of_nat m + 1)%Z by lia.
      rewrite Z.pow_add_r, Z.pow_mul_r by lia. change (2 ^ 2)%Z with 4%Z. lia. }
    rewrite Q in P |- *. change (qz 4) with (qz 2 * qz 2)%Qc in *. set (p := qz (4 ^ Z.of_nat m)) in *.
    rewrite qn_z. replace (Z.of_nat (2 * m)) with (Z.of_nat n - 1)%Z by lia. rewrite qz_sub.
    assert (M : qz (Z.of_nat m) = ((qz (Z.of_nat n) - 1) / qz 2)%Qc).
    { replace (Z.of_nat n) with (2 * Z.of_nat m + 1)%Z by lia. rewrite qz_add, qz_mul. change (qz 1) with 1%Qc.
      field. discriminate. }
    rewrite M. change (qz 1) with 1%Qc. assert (qz 2 <> 0%Qc) by discriminate.
    assert (p <> 0%Qc) by (intro Z0; apply P; rewrite Z0; ring).
    split; field; auto.
Qed.

Theorem e_z_mean n : 1 <= n -> e_z n = mean_half n (fun s => qn (Nat.min s (n - s))).
Proof.
  intro Hn. rewrite (mean_half_ext n _ (fun s => qz (mn n s))) by auto.
  rewrite mean_E. apply e_z_G1. auto.
Qed.
Theorem v_z_var n : 1 <= n -> v_z n = var_half n (fun s => qn (Nat.min s (n - s))).
Proof.
  intro Hn. rewrite var_half_eq, <- e_z_mean by auto.
  rewrite (mean_half_ext n (fun s => qn (Nat.min s (n - s)) * qn (Nat.min s (n - s)))%Qc
            (fun s => qz (mn n s * (mn n s - 1)) + qn (Nat.min s (n - s)))%Qc).
  2:{ intros s Hs. rewrite qz_mul, qz_sub. change (qz (mn n s)) with (qn (Nat.min s (n - s))).
      change (qz 1) with 1%Qc. ring. }
  rewrite mean_half_add, <- e_z_mean by auto. rewrite (mean_E n (fun s => mn n s * (mn n s - 1))%Z).
  change (E n (fun s => mn n s * (mn n s - 1))%Z) with (G2 n).
  unfold v_z. rewrite (proj2 (e_z_G1 n Hn)). ring.
Qed.
