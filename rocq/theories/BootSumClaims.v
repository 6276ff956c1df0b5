(** Proofs of C62 and C63. *)

From Coq Require Import String QArith Qcanon Qreals Reals Lra ZArith List Bool Lia Permutation Sorting.Sorted.
From Verif Require Import Val Frame Triangle A2A Base Mack Boot Quant Dist ListLib QcLib Spec Spec2 TblFacts ConvFacts FillFacts
  TriClaims4 RegFacts AvgFacts MackFacts BuildFacts BaseClaims BootFit BootLib BootSim BootClaims BootNoise BootClaims2
  BootSum SpecBootSum.
Import ListNotations.
Open Scope string_scope.
Open Scope list_scope.
Open Scope nat_scope.

(** ** Samples *)

Lemma mean_lin sims (k : nat) (x : nat -> nat -> Qc) : 
  sample_mean sims (fun s => sumf 0 k (fun i => x i s)) = sumf 0 k (fun i => sample_mean sims (x i)).
Proof.
  unfold sample_mean. induction k as [|k IH].
  - rewrite sumf_0. rewrite sumf_eq0_zero; [unfold Qcdiv; apply Qcmult_0_l|]. intros; apply sumf_0.
  - rewrite sumf_Sr, <- IH. rewrite (sumf_ext 0 sims _ (fun s => sumf 0 k (fun i => x i s) + x k s)%Qc).
    + rewrite sumf_add. change (0 + k) with k. cbv beta. unfold Qcdiv. ring.
    + intros. apply (sumf_Sr 0 k).
Qed.
Lemma sumf_swap a n b k (f : nat -> nat -> Qc) :
  sumf a n (fun i => sumf b k (f i)) = sumf b k (fun j => sumf a n (fun i => f i j)).
Proof.
  revert a. induction n as [|n IH]; intro a.
  - rewrite sumf_0. symmetry. apply sumf_eq0_zero. intros; apply sumf_0.
  - rewrite sumf_Sl, IH, <- sumf_add. apply sumf_ext. intros. rewrite sumf_Sl. auto.
Qed.
Lemma sumf_prod k (f g : nat -> Qc) : (sumf 0 k f * sumf 0 k g = sumf 0 k (fun i => sumf 0 k (fun j => f i * g j)))%Qc.
Proof.
  rewrite Qcmult_comm, <- sumf_mulc. apply sumf_ext. intros. rewrite Qcmult_comm. rewrite <- sumf_mulc. auto.
Qed.
Lemma sumf_divc a k c f : (sumf a k f / c = sumf a k (fun i => f i / c))%Qc.
Proof. unfold Qcdiv. rewrite Qcmult_comm, <- sumf_mulc. apply sumf_ext. intros. ring. Qed.

Lemma cov_sum sims k (x : nat -> nat -> Qc) :
  let t s := sumf 0 k (fun i => x i s) in
  covariance sims t t = sumf 0 k (fun i => sumf 0 k (fun j => covariance sims (x i) (x j))).
Proof.
  intro t. unfold covariance. unfold t at 2 4. rewrite mean_lin.
  rewrite (sumf_ext 0 sims _ (fun s => sumf 0 k (fun i => sumf 0 k (fun j =>
     (x i s - sample_mean sims (x i)) * (x j s - sample_mean sims (x j)))))%Qc).
  2:{ intros s _. unfold t. rewrite <- sumf_sub. apply sumf_prod. }
  rewrite sumf_swap, sumf_divc. apply sumf_ext. intros i _. rewrite sumf_swap, sumf_divc. auto.
Qed.
Lemma cov_nonneg sims x : 2 <= sims -> (0 <= covariance sims x x)%Qc.
Proof.
  intro H. apply qc_div_nonneg; [|apply qn_pos; lia]. apply sumf_nonneg. intros. apply qc_sq_nonneg.
Qed.
Lemma cov_const sims c : 2 <= sims -> covariance sims (fun _ => c) (fun _ => c) = 0%Qc.
Proof.
  intro H. unfold covariance. rewrite sumf_eq0_zero; [unfold Qcdiv; apply Qcmult_0_l|]. intros.
  assert (E : sample_mean sims (fun _ => c) = c).
  { unfold sample_mean. rewrite sumf_const. field. apply qc_pos_neq, qn_pos. lia. }
  rewrite E. ring.
Qed.
(** Cauchy-Schwarz, without division: (sum a b)^2 <= (sum a^2) (sum b^2). *)
Lemma cauchy k (a b : nat -> Qc) :
  (sumf 0 k (fun s => a s * b s) * sumf 0 k (fun s => a s * b s)
   <= sumf 0 k (fun s => a s * a s) * sumf 0 k (fun s => b s * b s))%Qc.
Proof.
  assert (N : (0 <= sumf 0 k (fun i => sumf 0 k (fun j => (a i * b j - a j * b i) * (a i * b j - a j * b i))))%Qc).
  { apply sumf_nonneg. intros. apply sumf_nonneg. intros. apply qc_sq_nonneg. }
  rewrite (sumf_ext 0 k _ (fun i => sumf 0 k (fun j => (a i * a i) * (b j * b j)) + sumf 0 k (fun j => (b i * b i) * (a j * a j))
      - qz 2 * sumf 0 k (fun j => (a i * b i) * (a j * b j))))%Qc in N.
  2:{ intros i _. rewrite <- sumf_add, <- sumf_mulc, <- sumf_sub. apply sumf_ext. intros j _.
      replace (qz 2) with (1 + 1)%Qc by (apply this_inj; reflexivity). ring. }
  rewrite sumf_sub, sumf_add, sumf_mulc, <- !sumf_prod in N.
  replace (qz 2) with (1 + 1)%Qc in N by (apply this_inj; reflexivity).
  set (S2 := sumf 0 k (fun s => a s * b s)%Qc) in *.
  set (A := sumf 0 k (fun s => a s * a s)%Qc) in *. set (B := sumf 0 k (fun s => b s * b s)%Qc) in *.
  rewrite (Qcmult_comm B A) in N. generalize dependent (A * B)%Qc. intros q N.
  replace ((1 + 1) * (S2 * S2))%Qc with (S2 * S2 + S2 * S2)%Qc in N by ring.
  generalize dependent (S2 * S2)%Qc. intros p N. qlra.
Qed.

(** Over the reals. *)
Lemma Q2R_sumf a k f : Q2R (sumf a k f) = fold_right Rplus 0%R (map (fun i => Q2R (f i)) (seq a k)).
Proof.
  revert a. induction k as [|k IH]; intro a.
  - unfold sumf. simpl. unfold Q2R. simpl. lra.
  - rewrite sumf_Sl. cbn [seq map fold_right]. rewrite <- IH. rewrite <- Q2R_plus. apply Qeq_eqR. apply this_plus.
Qed.
Lemma Q2R_mul a b : Q2R (a * b)%Qc = (Q2R a * Q2R b)%R.
Proof. rewrite <- Q2R_mult. apply Qeq_eqR, this_mult. Qed.
Lemma Q2R_add a b : Q2R (a + b)%Qc = (Q2R a + Q2R b)%R.
Proof. rewrite <- Q2R_plus. apply Qeq_eqR, this_plus. Qed.
Lemma Q2R_le a b : (a <= b)%Qc -> (Q2R a <= Q2R b)%R.
Proof. intro H. apply Qle_Rle. exact H. Qed.
Lemma Q2R_zero : Q2R 0%Qc = 0%R.
Proof. unfold Q2R. simpl. lra. Qed.

Lemma cov_add_l sims x y z : covariance sims (fun s => x s + y s)%Qc z = (covariance sims x z + covariance sims y z)%Qc.
Proof.
  assert (E : sample_mean sims (fun s => x s + y s)%Qc = (sample_mean sims x + sample_mean sims y)%Qc).
  { unfold sample_mean. rewrite sumf_add. unfold Qcdiv. ring. }
  unfold covariance. rewrite E. unfold Qcdiv. rewrite <- Qcmult_plus_distr_l, <- sumf_add. f_equal.
  apply sumf_ext. intros. ring.
Qed.
Lemma cov_sym sims x y : covariance sims x y = covariance sims y x.
Proof. unfold covariance. f_equal. apply sumf_ext. intros. ring. Qed.
Lemma cov_cauchy sims x y : 2 <= sims ->
  (covariance sims x y * covariance sims x y <= covariance sims x x * covariance sims y y)%Qc.
Proof.
  intro H. unfold covariance.
  assert (N := cauchy sims (fun s => x s - sample_mean sims x)%Qc (fun s => y s - sample_mean sims y)%Qc). cbv beta in N.
  set (p := sumf 0 sims _) in N at 1 2. set (q := sumf 0 sims _) in N at 1. set (r := sumf 0 sims _) in N.
  fold p q r.
  assert (D : (0 < qn (sims - 1))%Qc) by (apply qn_pos; lia). set (d := qn (sims - 1)) in *.
  replace (p / d * (p / d))%Qc with (p * p / (d * d))%Qc by (field; apply qc_pos_neq; auto).
  replace (q / d * (r / d))%Qc with (q * r / (d * d))%Qc by (field; apply qc_pos_neq; auto).
  unfold Qcdiv. apply Qcmult_le_compat_r; auto. apply Qclt_le_weak. apply qc_inv_pos, qc_mul_pos; auto.
Qed.
(** Minkowski. *)
Lemma sd_add sims x y : 2 <= sims ->
  (sqrt (Q2R (covariance sims (fun s => x s + y s)%Qc (fun s => x s + y s)%Qc))
   <= sqrt (Q2R (covariance sims x x)) + sqrt (Q2R (covariance sims y y)))%R.
Proof.
  intro H. rewrite cov_add_l, (cov_sym _ x), (cov_sym _ y), !cov_add_l, (cov_sym _ y x).
  assert (A := Q2R_le _ _ (cov_nonneg sims x H)). assert (B := Q2R_le _ _ (cov_nonneg sims y H)).
  assert (S := Q2R_le _ _ (cov_cauchy sims x y H)). rewrite !Q2R_mul in S. rewrite Q2R_zero in *.
  assert (T := Q2R_le _ _ (cov_nonneg sims (fun s => x s + y s)%Qc H)).
  rewrite cov_add_l, (cov_sym _ x), (cov_sym _ y), !cov_add_l, (cov_sym _ y x), !Q2R_add, Q2R_zero in T.
  rewrite !Q2R_add.
  set (a := Q2R (covariance sims x x)) in *. set (b := Q2R (covariance sims y y)) in *. set (c := Q2R (covariance sims x y)) in *.
  assert (Pa := sqrt_pos a). assert (Pb := sqrt_pos b).
  rewrite <- (sqrt_square (sqrt a + sqrt b)) by lra. apply sqrt_le_1; [lra|nra|].
  assert (Sa := sqrt_sqrt a A). assert (Sb := sqrt_sqrt b B).
  assert (c <= sqrt a * sqrt b)%R; [|nra].
  assert (c * c <= (sqrt a * sqrt b) * (sqrt a * sqrt b))%R by (replace ((sqrt a * sqrt b) * (sqrt a * sqrt b))%R with ((sqrt a * sqrt a) * (sqrt b * sqrt b))%R by ring; rewrite Sa, Sb; auto).
  assert (0 <= sqrt a * sqrt b)%R by nra. nra.
Qed.
Lemma sd_sum sims k (x : nat -> nat -> Qc) : 2 <= sims ->
  let t s := sumf 0 k (fun i => x i s) in
  (sqrt (Q2R (covariance sims t t)) <= fold_right Rplus 0 (map (fun i => sqrt (Q2R (covariance sims (x i) (x i)))) (seq 0 k)))%R.
Proof.
  intro H. cbv zeta. revert x. induction k as [|k IH]; intro x.
  - change (fun s => sumf 0 0 _) with (fun _ : nat => 0%Qc). rewrite cov_const by auto. rewrite Q2R_zero, sqrt_0. simpl. lra.
  - cbn [seq map fold_right]. rewrite <- seq_shift, map_map.
    specialize (IH (fun i => x (S i))). cbv beta in IH.
    assert (N := sd_add sims (x 0) (fun s => sumf 0 k (fun i => x (S i) s)) H).
    match goal with |- (sqrt (Q2R ?l) <= _)%R => match type of N with (sqrt (Q2R ?r) <= _)%R => replace l with r end end.
    + lra.
    + unfold covariance, sample_mean. 
      rewrite (sumf_ext 0 sims (fun s => sumf 0 (S k) (fun i => x i s)) (fun s => x 0%nat s + sumf 0 k (fun i => x (S i) s))%Qc).
      * apply (f_equal this), (f_equal2 Qcdiv); auto. apply sumf_ext. intros. rewrite (sumf_Sl 0 k), sumf_shift. auto.
      * intros. rewrite (sumf_Sl 0 k), sumf_shift. auto.
Qed.

(** ** The call *)

(** What a call returned, in terms of the records of [reserve_dist]. *)
Lemma boot_records gm rt m n C cl rl ind sims par rng b :
  regular m n C -> 0 < n ->
  boot_cl gm rt (mkTri m "origin" "dev" "value") cl rl ind sims par rng = Ok b ->
  exists (R : nat -> nat -> rrec),
    o_reserves b = flat_map (fun i => map (fun s => R s i) (seq 0 sims)) (seq 0 n) /\
    (forall s i, s < sims -> i < n -> v_o (R s i) = nth i (m_idx m) 0%Z /\ v_sim (R s i) = s /\
       (i = 0 -> v_reserve (R s i) = Fin 0%Qc) /\
       (forall u l, v_ultimate (R s i) = Fin u -> v_latest (R s i) = Fin l -> v_reserve (R s i) = Fin (u - l)%Qc)) /\
    o_summary b = map (fun i => let o := nth i (m_idx m) 0%Z in
        let u := if i =? 0 then Fin (C 0 (n - 1)) else vmean (map (fun s => v_ultimate (R s i)) (seq 0 sims)) in
        (o, Fin (C i (n - 1 - i)), u, vsub u (Fin (C i (n - 1 - i))))) (seq 0 n) /\
    o_total b = (skipsum (map (fun r => snd (fst (fst r))) (o_summary b)), skipsum (map (fun r => snd (fst r)) (o_summary b)),
                 skipsum (map (fun r => snd r) (o_summary b))).
Proof.
  intros Rg Hn B. assert (R' := Rg). apply regular_rmat in R' as (E & So & Sd & Lo & Ld).
  assert (Nd : m_cols m <> []) by (intro Q; rewrite Q in Ld; simpl in Ld; lia).
  set (lt := map (fun i => (nth i (m_idx m) 0%Z, Fin (C i (n - 1 - i)%nat))) (seq 0 n)).
  assert (E3 : latest_by_origin (mkTri m "origin" "dev" "value") = Ok lt).
  { rewrite E. apply r_latest_by_origin; auto. }
  unfold boot_cl in B. cbn [t_mat t_v] in B.
  destruct (ldfs_of_label _ _ _ _ _) as [lfs|]; [|discriminate]. cbn [bind] in B.
  rewrite E3 in B. cbn [bind] in B.
  destruct (tri_fit_cum _ _) as [fc|]; [|discriminate]. cbn [bind] in B.
  destruct (resid_us _ _ _) as [ru|]; [|discriminate]. cbn [bind] in B.
  destruct (negb _); [discriminate|]. destruct (negb par && _ && _); [discriminate|].
  match type of B with context [simulate ?a ?b ?c ?d ?e ?f ?g ?h ?i] =>
    destruct (c43_gen a b c d e f g h i So Sd Nd) as (R & Er & H) end.
  rewrite Lo in Er, H. rewrite Er in B. exists R.
  assert (Ko : forall s k, s < sims -> k < n -> v_o (R s k) = nth k (m_idx m) 0%Z).
  { intros s k Hs Hk. destruct (H s k Hs Hk) as (la & u & -> & _). auto. }
  injection B as <-. cbn [o_reserves o_summary o_total]. split; [auto|]. split; [|split; [|auto]].
  - intros s i Hs Hi. destruct (H s i Hs Hi) as (la & u & Eq & Z0). rewrite Eq. cbn [rec_of v_o v_sim v_reserve v_ultimate v_latest].
    split; [auto|]. split; [auto|]. split.
    + intro Q. rewrite (Z0 Q). unfold vsub. rewrite vadd_nan_r. auto.
    + intros u' l Hu Hl. subst u. destruct (isnan la) eqn:N.
      * injection Hl as <-. apply isnan_true in N. subst la. cbn. f_equal. ring.
      * subst la. auto.
  - match goal with |- map ?F lt = _ =>
      transitivity (map (fun i => F (nth i (m_idx m) 0%Z, Fin (C i (n - 1 - i)%nat))) (seq 0 n)); [apply (map_map _ F)|] end.
    apply map_seq_ext. intros i Hi. cbn [fst snd].
    assert (Zm : zmin (map fst lt) = nth 0 (m_idx m) 0%Z).
    { unfold lt. rewrite map_map. cbn [fst]. rewrite <- Lo at 1. rewrite map_nth_seq. apply zmin_sorted; auto.
      intro Q. rewrite Q in Lo. simpl in Lo. lia. }
    rewrite Zm.
    assert (Q : (if (nth i (m_idx m) 0 =? nth 0 (m_idx m) 0)%Z then slookup lt (nth i (m_idx m) 0%Z)
                 else mean_by v_ultimate (flat_map (fun i => map (fun s => R s i) (seq 0 sims)) (seq 0 n)) (nth i (m_idx m) 0%Z))
               = if i =? 0 then Fin (C 0 (n - 1)) else vmean (map (fun s => v_ultimate (R s i)) (seq 0 sims))).
    { destruct (Nat.eqb_spec i 0) as [->|D].
      - rewrite Z.eqb_refl. unfold lt. destruct n as [|k]; [lia|]. cbn [seq map]. unfold slookup. cbn [find fst]. rewrite Z.eqb_refl.
        cbn [snd]. rewrite Nat.sub_0_r. auto.
      - destruct (Z.eqb_spec (nth i (m_idx m) 0%Z) (nth 0 (m_idx m) 0%Z)) as [Q|Q].
        + apply (NoDup_nth (m_idx m) 0%Z) in Q; try lia. apply zsorted_nodup; auto.
        + unfold mean_by. rewrite <- Lo. rewrite by_origin; auto; [|lia|intros; apply Ko; lia]. rewrite map_map. auto. }
    rewrite Q. auto.
Qed.

Lemma uniq_sims n sims (R : nat -> nat -> rrec) : 0 < n -> (forall s k, s < sims -> k < n -> v_sim (R s k) = s) ->
  uniq Nat.compare (map v_sim (flat_map (fun i => map (fun s => R s i) (seq 0 sims)) (seq 0 n))) = seq 0 sims.
Proof.
  intros Hn H.
  assert (Ceq : forall x y, Nat.compare x y = Eq <-> x = y) by apply Nat.compare_eq_iff.
  assert (Cop : forall x y, Nat.compare y x = CompOpp (Nat.compare x y)) by (intros; apply Nat.compare_antisym).
  assert (Ctr : forall x y z, Nat.compare x y = Lt -> Nat.compare y z = Lt -> Nat.compare x z = Lt)
    by (intros x y z; rewrite !Nat.compare_lt_iff; lia).
  apply (ssorted_ext Nat.compare Ceq Ctr); [apply uniq_sorted; auto| |].
  - generalize 0. clear -Hn. induction sims as [|k IH]; intro a; constructor; auto.
    apply Forall_forall. intros y Hy. apply in_seq in Hy. apply Nat.compare_lt_iff. lia.
  - intro x. rewrite (uniq_in Nat.compare Ceq). rewrite in_map_iff. split.
    + intros (r & <- & Hr). apply in_flat_map in Hr as (i & Hi & Hr). apply in_map_iff in Hr as (s & <- & Hs).
      apply in_seq in Hi, Hs. rewrite H by lia. apply in_seq. lia.
    + intro Hx. apply in_seq in Hx. exists (R x 0). split; [apply H; lia|].
      apply in_flat_map. exists 0. split; [apply in_seq; lia|]. apply in_map_iff. exists x. split; auto. apply in_seq. lia.
Qed.

Lemma boot_samples n sims (R : nat -> nat -> rrec) os (x : nat -> nat -> Qc) :
  zsorted os -> List.length os = n -> 0 < n ->
  (forall s i, s < sims -> i < n -> v_o (R s i) = nth i os 0%Z /\ v_sim (R s i) = s /\ v_reserve (R s i) = Fin (x i s)) ->
  samples (flat_map (fun i => map (fun s => R s i) (seq 0 sims)) (seq 0 n)) os
  = map (fun i => map (fun s => Fin (x i s)) (seq 0 sims)) (seq 0 n)
    ++ [map (fun s => Fin (sumf 0 n (fun i => x i s))) (seq 0 sims)].
Proof.
  intros So Lo Hn H. unfold samples. apply f_equal2.
  - transitivity (map (fun i => origin_sample (flat_map (fun i => map (fun s => R s i) (seq 0 sims)) (seq 0 n)) (nth i os 0%Z)) (seq 0 n)).
    { rewrite <- (map_map (fun i => nth i os 0%Z)). rewrite <- Lo at 3. rewrite map_nth_seq. auto. }
    apply map_seq_ext. intros i Hi. unfold origin_sample. rewrite <- Lo. rewrite by_origin; auto; [|lia|].
    + rewrite map_map. apply map_ext_in. intros s Hs. apply in_seq in Hs. apply H; lia.
    + intros s k Hs Hk. apply H; lia.
  - f_equal. unfold total_sample. rewrite uniq_sims; [|auto|intros; apply H; auto].
    apply map_ext_in. intros s Hs. apply in_seq in Hs. rewrite by_sim; [|lia|intros; apply H; auto].
    rewrite map_map. unfold sumf. rewrite <- skipsum_fin, map_map. f_equal. apply map_ext_in. intros i Hi. apply in_seq in Hi. apply H; lia.
Qed.

Lemma variance_fin sims (x : nat -> Qc) : 2 <= sims -> variance1 (map (fun s => Fin (x s)) (seq 0 sims)) = Fin (covariance sims x x).
Proof.
  intro H. unfold variance1.
  rewrite <- (map_map x Fin). rewrite vmean_fin by (destruct sims; [lia|discriminate]).
  rewrite !map_map, !map_length, seq_length. fold (sumf 0 sims x). fold (sample_mean sims x).
  rewrite (map_ext _ (fun s => Fin ((x s - sample_mean sims x) * (x s - sample_mean sims x))%Qc)) by (intro; rewrite vsub_fin; auto).
  rewrite <- (map_map (fun s => (x s - sample_mean sims x) * (x s - sample_mean sims x))%Qc Fin), vsum_fin.
  unfold vz. replace (qz (Z.of_nat sims - 1)) with (qn (sims - 1)) by (unfold qn; f_equal; lia).
  rewrite vdiv_fin; auto. apply qc_pos_neq, qn_pos. lia.
Qed.
Lemma variance_one x : variance1 [Fin x] = NaN.
Proof.
  unfold variance1. change [Fin x] with (map Fin [x]). rewrite vmean_fin by discriminate. cbn [map List.length Z.of_nat Z.sub Pos.of_succ_nat Z.add Z.opp Z.pos_sub].
  assert (E : (x - qsum [x] / qn 1 = 0)%Qc).
  { cbn [qsum fold_right]. rewrite qn_1. field. apply qc_1_neq_0. }
  rewrite vsub_fin, E. vm_compute. reflexivity.
Qed.

Lemma fsqrt_fin q : (0 <= q)%Qc -> fsqrt (of_val (Fin q)) = FR (sqrt (Q2R q)).
Proof.
  intro H. cbn. destruct (Rlt_dec (Q2R q) 0) as [A|A]; auto. apply Q2R_le in H. rewrite Q2R_zero in H. lra.
Qed.

Lemma table_cols b : List.length (boot_std_errors b) = S (List.length (o_summary b)) ->
  map w_origin (boot_table b) = map (fun r => Some (fst (fst (fst r)))) (o_summary b) ++ [None] /\
  map w_latest (boot_table b) = map (fun r => snd (fst (fst r))) (o_summary b) ++ [fst (fst (o_total b))] /\
  map w_ultimate (boot_table b) = map (fun r => snd (fst r)) (o_summary b) ++ [snd (fst (o_total b))] /\
  map w_reserve (boot_table b) = map snd (o_summary b) ++ [snd (o_total b)] /\
  map w_std_error (boot_table b) = boot_std_errors b /\
  map w_cv (boot_table b) = map (fun p => fdiv (snd p) (of_val (fst p)))
      (combine (map snd (o_summary b) ++ [snd (o_total b)]) (boot_std_errors b)).
Proof.
  unfold boot_table. generalize (boot_std_errors b). destruct (o_total b) as [[l u] r]. cbn [fst snd].
  induction (o_summary b) as [|[[[o' l'] u'] r'] s IH]; intros ses L.
  - destruct ses as [|se [|? ?]]; try discriminate. cbn. repeat split.
  - destruct ses as [|se ses]; [discriminate|]. cbn [List.length] in L. injection L as L. specialize (IH ses L).
    cbn [map app combine fst snd w_origin w_latest w_ultimate w_reserve w_std_error w_cv].
    destruct IH as (A1 & A2 & A3 & A4 & A5 & A6). rewrite A1, A2, A3, A4, A5, A6. repeat split.
Qed.

Theorem c62 gm rt m n C cl rl ind sims par rng b (x : nat -> nat -> Qc) :
  regular m n C -> 0 < n ->
  boot_cl gm rt (mkTri m "origin" "dev" "value") cl rl ind sims par rng = Ok b ->
  (forall i s, i < n -> s < sims ->
     In (nth i (m_idx m) 0%Z, s, Fin (x i s)) (map (fun r => (v_o r, v_sim r, v_reserve r)) (o_reserves b))) ->
  2 <= sims ->
  let sd i := sqrt (Q2R (covariance sims (x i) (x i))) in
  let sd_total := sqrt (Q2R (sumf 0 n (fun i => sumf 0 n (fun k => covariance sims (x i) (x k))))) in
  map w_origin (boot_table b) = map Some (m_idx m) ++ [None] /\
  map w_std_error (boot_table b) = map (fun i => FR (sd i)) (seq 0 n) ++ [FR sd_total] /\
  (forall r se q, In r (boot_table b) -> w_std_error r = FR se -> w_reserve r = Fin q -> q <> 0%Qc ->
     w_cv r = FR (se / Q2R q)) /\
  sd 0 = 0%R /\ (sd_total <= fold_right Rplus 0 (map sd (seq 0 n)))%R.
Proof.
  intros Rg Hn B X Hs sd sdt. destruct (boot_records _ _ _ _ _ _ _ _ _ _ _ _ Rg Hn B) as (R & Er & H & Es & Et).
  assert (So : zsorted (m_idx m)) by apply Rg. assert (Lo : List.length (m_idx m) = n) by apply Rg.
  assert (Hx : forall s i, s < sims -> i < n -> v_reserve (R s i) = Fin (x i s)).
  { intros s i Ls Li. specialize (X i s Li Ls). apply in_map_iff in X as (r & E & Hr). rewrite Er in Hr.
    apply in_flat_map in Hr as (i' & Hi' & Hr). apply in_map_iff in Hr as (s' & <- & Hs'). apply in_seq in Hi', Hs'.
    injection E as E1 E2 E3. destruct (H s' i' ltac:(lia) ltac:(lia)) as (A1 & A2 & _). rewrite A1 in E1. rewrite A2 in E2.
    apply (NoDup_nth (m_idx m) 0%Z) in E1; [|apply zsorted_nodup; auto|lia|lia]. congruence. }
  assert (Ho : map (fun r => fst (fst (fst r))) (o_summary b) = m_idx m).
  { rewrite Es, map_map. cbn [fst]. rewrite <- Lo at 1. apply map_nth_seq. }
  assert (Se : boot_std_errors b = map (fun i => FR (sd i)) (seq 0 n) ++ [FR sdt]).
  { unfold boot_std_errors, boot_variances. rewrite Ho, Er.
    rewrite (boot_samples n sims R (m_idx m) x); auto.
    2:{ intros s i Ls Li. destruct (H s i Ls Li) as (A1 & A2 & _). auto. }
    rewrite !map_app, !map_map. f_equal.
    - apply map_seq_ext. intros i Hi. rewrite variance_fin by auto. apply fsqrt_fin, cov_nonneg; auto.
    - cbn [map]. f_equal. rewrite (variance_fin sims (fun s => sumf 0 n (fun i => x i s))) by auto.
      rewrite fsqrt_fin by (apply cov_nonneg; auto). rewrite cov_sum. auto. }
  destruct (table_cols b) as (A1 & A2 & A3 & A4 & A5 & A6).
  { rewrite Se, app_length, map_length, seq_length. rewrite <- (map_length (fun r => fst (fst (fst r)))), Ho, Lo. simpl. lia. }
  split; [|split; [|split; [|split]]].
  - rewrite A1. f_equal. rewrite <- Ho, map_map. auto.
  - rewrite A5. auto.
  - intros r se q Hr E1 E2 Nz. unfold boot_table in Hr. apply in_map_iff in Hr as ([[[[o l] u] r'] se'] & <- & _).
    cbn in *. subst. cbn. destruct (Req_EM_T (Q2R q) 0) as [Q|Q]; auto.
    exfalso. apply Nz. apply this_inj. apply eqR_Qeq. rewrite Q. rewrite <- Q2R_zero. auto.
  - unfold sd. assert (E : covariance sims (x 0) (x 0) = covariance sims (fun _ => 0%Qc) (fun _ => 0%Qc)).
    { assert (Ex : forall s, s < sims -> x 0 s = 0%Qc).
      { intros s Ls. specialize (Hx s 0 Ls Hn). destruct (H s 0 Ls Hn) as (_ & _ & Z & _). rewrite (Z eq_refl) in Hx. congruence. }
      unfold covariance, sample_mean. rewrite (sumf_ext 0 sims (x 0) (fun _ => 0%Qc)) by (intros; apply Ex; lia).
      f_equal. apply sumf_ext. intros s Ls. rewrite Ex by lia. auto. }
    rewrite E, cov_const, Q2R_zero by auto. apply sqrt_0.
  - unfold sdt. rewrite <- cov_sum. apply sd_sum. auto.
Qed.

Theorem c62_one gm rt m n C cl rl ind par rng b (x : nat -> Qc) :
  regular m n C -> 0 < n ->
  boot_cl gm rt (mkTri m "origin" "dev" "value") cl rl ind 1 par rng = Ok b ->
  (forall i, i < n -> In (nth i (m_idx m) 0%Z, Fin (x i)) (map (fun r => (v_o r, v_reserve r)) (o_reserves b))) ->
  map w_origin (boot_table b) = map Some (m_idx m) ++ [None] /\
  forall r, In r (boot_table b) -> w_std_error r = FNaN /\ w_cv r = FNaN.
Proof.
  intros Rg Hn B X. destruct (boot_records _ _ _ _ _ _ _ _ _ _ _ _ Rg Hn B) as (R & Er & H & Es & Et).
  assert (So : zsorted (m_idx m)) by apply Rg. assert (Lo : List.length (m_idx m) = n) by apply Rg.
  assert (Hx : forall i, i < n -> v_reserve (R 0 i) = Fin (x i)).
  { intros i Li. specialize (X i Li). apply in_map_iff in X as (r & E & Hr). rewrite Er in Hr.
    apply in_flat_map in Hr as (i' & Hi' & Hr). apply in_map_iff in Hr as (s' & <- & Hs'). apply in_seq in Hi', Hs'.
    injection E as E1 E3. destruct (H s' i' ltac:(lia) ltac:(lia)) as (A1 & A2 & _). rewrite A1 in E1.
    apply (NoDup_nth (m_idx m) 0%Z) in E1; [|apply zsorted_nodup; auto|lia|lia]. assert (s' = 0) by lia. congruence. }
  assert (Ho : map (fun r => fst (fst (fst r))) (o_summary b) = m_idx m).
  { rewrite Es, map_map. cbn [fst]. rewrite <- Lo at 1. apply map_nth_seq. }
  assert (Se : boot_std_errors b = map (fun _ => FNaN) (seq 0 n) ++ [FNaN]).
  { unfold boot_std_errors, boot_variances. rewrite Ho, Er.
    rewrite (boot_samples n 1 R (m_idx m) (fun i _ => x i)); auto.
    2:{ intros s i Ls Li. destruct (H s i Ls Li) as (A1 & A2 & _). assert (s = 0) by lia. subst. auto. }
    rewrite !map_app, !map_map. f_equal.
    - apply map_seq_ext. intros i Hi. cbn [seq map]. rewrite variance_one. auto.
    - cbn [map seq]. rewrite variance_one. auto. }
  destruct (table_cols b) as (A1 & A2 & A3 & A4 & A5 & A6).
  { rewrite Se, app_length, map_length, seq_length. rewrite <- (map_length (fun r => fst (fst (fst r)))), Ho, Lo. simpl. lia. }
  split.
  - rewrite A1. f_equal. rewrite <- Ho, map_map. auto.
  - intros r Hr. assert (E : w_std_error r = FNaN).
    { assert (Q : In (w_std_error r) (map w_std_error (boot_table b))) by (apply in_map; auto). rewrite A5, Se in Q.
      apply in_app_or in Q as [Q|Q]; [apply in_map_iff in Q as (? & ? & _); auto|destruct Q as [Q|[]]; auto]. }
    split; auto. unfold boot_table in Hr. apply in_map_iff in Hr as ([[[[o l] u] r'] se'] & <- & _). cbn in *. subst. auto.
Qed.

(** ** C63 *)
Theorem c63 gm rt m n C cl rl ind sims par rng b (u l : nat -> nat -> Qc) :
  regular m n C -> 0 < n ->
  boot_cl gm rt (mkTri m "origin" "dev" "value") cl rl ind sims par rng = Ok b -> 0 < sims ->
  (forall i s, i < n -> s < sims -> exists r, In r (o_reserves b) /\ v_o r = nth i (m_idx m) 0%Z /\ v_sim r = s /\
     v_ultimate r = Fin (u i s) /\ v_latest r = Fin (l i s)) ->
  let latest i := C i (n - 1 - i) in
  let ultimate i := if i =? 0 then latest 0 else sample_mean sims (u i) in
  let reserve i := if i =? 0 then 0%Qc
                   else (sample_mean sims (fun s => u i s - l i s) + (sample_mean sims (l i) - latest i))%Qc in
  (forall i s, i < n -> s < sims -> exists r, In r (o_reserves b) /\ v_o r = nth i (m_idx m) 0%Z /\ v_sim r = s /\
     v_reserve r = Fin (u i s - l i s)%Qc) /\
  map (fun r => (fst (fst (fst r)), snd (fst (fst r)), snd (fst r), snd r)) (o_summary b)
    = map (fun i => (nth i (m_idx m) 0%Z, Fin (latest i), Fin (ultimate i), Fin (reserve i))) (seq 0 n) /\
  o_total b = (Fin (sumf 0 n latest), Fin (sumf 0 n ultimate), Fin (sumf 0 n reserve)).
Proof.
  intros Rg Hn B Hs X latest ultimate reserve.
  destruct (boot_records _ _ _ _ _ _ _ _ _ _ _ _ Rg Hn B) as (R & Er & H & Es & Et).
  assert (So : zsorted (m_idx m)) by apply Rg. assert (Lo : List.length (m_idx m) = n) by apply Rg.
  assert (Hx : forall s i, s < sims -> i < n -> v_ultimate (R s i) = Fin (u i s) /\ v_latest (R s i) = Fin (l i s)).
  { intros s i Ls Li. destruct (X i s Li Ls) as (r & Hr & E1 & E2 & E3 & E4). rewrite Er in Hr.
    apply in_flat_map in Hr as (i' & Hi' & Hr). apply in_map_iff in Hr as (s' & <- & Hs'). apply in_seq in Hi', Hs'.
    destruct (H s' i' ltac:(lia) ltac:(lia)) as (A1 & A2 & _). rewrite A1 in E1. rewrite A2 in E2.
    apply (NoDup_nth (m_idx m) 0%Z) in E1; [|apply zsorted_nodup; auto|lia|lia]. subst. auto. }
  assert (Rows : o_summary b = map (fun i => (nth i (m_idx m) 0%Z, Fin (latest i), Fin (ultimate i), Fin (reserve i))) (seq 0 n)).
  { rewrite Es. apply map_seq_ext. intros i Hi. cbv zeta.
    assert (Eu : (if i =? 0 then Fin (C 0 (n - 1)) else vmean (map (fun s => v_ultimate (R s i)) (seq 0 sims))) = Fin (ultimate i)).
    { unfold ultimate, latest. destruct (i =? 0); [rewrite Nat.sub_0_r; auto|].
      rewrite (map_ext_in _ (fun s => Fin (u i s))). 2:{ intros s Ls. apply in_seq in Ls. apply Hx; lia. }
      rewrite <- (map_map (u i) Fin), vmean_fin by (destruct sims; [lia|discriminate]).
      rewrite map_length, seq_length. auto. }
    rewrite Eu, vsub_fin. f_equal. f_equal. unfold reserve, ultimate, latest. destruct (Nat.eqb_spec i 0) as [->|D].
    - ring.
    - unfold sample_mean. rewrite sumf_sub. unfold Qcdiv. ring. }
  split; [|split].
  - intros i s Li Ls. exists (R s i). destruct (H s i Ls Li) as (A1 & A2 & _ & A4). destruct (Hx s i Ls Li) as (B1 & B2).
    split; [|split; [auto|split; auto]].
    rewrite Er. apply in_flat_map. exists i. split; [apply in_seq; lia|]. apply in_map_iff. exists s. split; auto. apply in_seq; lia.
  - rewrite Rows, map_map. auto.
  - rewrite Et, Rows, !map_map. cbn [fst snd]. unfold sumf. rewrite <- !skipsum_fin, !map_map. auto.
Qed.
