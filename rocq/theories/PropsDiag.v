(** Diagnostics of Mack's chain ladder: C44, C45. *)

From Coq Require Import String QArith Qcanon ZArith List Bool Lia Permutation Sorting.Sorted.
From Verif Require Import Val Frame Triangle A2A Base Mack Diag QcLib Spec Spec2 ExTri ExMack SpearFacts Binom DiagFacts CyFacts.
Import ListNotations.
Open Scope list_scope.
Open Scope nat_scope.

(** ** C44.  T_k compares the ranks of the link ratios of development periods k and
    k-1 (of the N = n-k origins having both); it is Spearman's coefficient, lies in
    [-1, 1] (ties included), is 1 when the rankings agree and -1 when they are
    opposite; the total, the weighted mean with weights n-k-1, lies in [-1, 1]. *)
Theorem C44_spearman_coefficients :
  forall (m : lmat) (n : nat) (C : nat -> nat -> Qc),
  regular m n C -> positive n C -> 3 < n ->
  exists T : nat -> Qc,
    spearman_coeffs m = Ok (map (fun k => (Z.of_nat k, Z.of_nat (n - k - 1), Fin (T k))) (seq 2 (n - 3))) /\
    (forall k, 2 <= k <= n - 2 ->
       let F i j := (C i (S j) / C i j)%Qc in
       let x i := F i (k - 1) in
       let y i := F i (k - 2) in
       let N := n - k in
       T k = (1 - qz 6 * (sumf 0 N (fun i => (avg_rank x N i - avg_rank y N i) * (avg_rank x N i - avg_rank y N i))
                          / (qn N * qn N * qn N - qn N)))%Qc /\
       (- (1) <= T k)%Qc /\ (T k <= 1)%Qc /\
       ((forall i j, i < N -> j < N -> ((x i < x j)%Qc <-> (y i < y j)%Qc)) -> T k = 1%Qc) /\
       ((forall i j, i < N -> j < N -> i <> j -> x i <> x j) ->
        (forall i j, i < N -> j < N -> ((x i < x j)%Qc <-> (y j < y i)%Qc)) -> T k = (- (1))%Qc)) /\
    exists q, spearman_total m = Ok (Fin q) /\
      q = (sumf 2 (n - 3) (fun k => qn (n - k - 1) * T k) / sumf 2 (n - 3) (fun k => qn (n - k - 1)))%Qc /\
      (- (1) <= q)%Qc /\ (q <= 1)%Qc.
Proof. exact c44. Qed.
Print Assumptions C44_spearman_coefficients.

(** A triangle with agreeing rankings for k = 2 (N = 3) and k = 3 (N = 2); those of
    [ex_m] are opposite. *)
Definition sp_rows : list (list Z) :=
  [[100; 110; 121; 242; 484]; [100; 120; 240; 720; 0]; [100; 130; 390; 0; 0]; [100; 150; 0; 0; 0]; [100; 0; 0; 0; 0]]%Z.
Definition sp_C (i j : nat) : Qc := qz (nth j (nth i sp_rows []) 0%Z).
Definition sp_m : lmat := mkMat [1; 2; 3; 4; 5]%Z [1; 2; 3; 4; 5]%Z
  (map (fun i => map (fun j => if i + j <? 5 then Fin (sp_C i j) else NaN) (seq 0 5)) (seq 0 5)).
Lemma sp_regular : regular sp_m 5 sp_C.
Proof.
  repeat split; simpl; auto.
  - repeat constructor.
  - repeat constructor.
  - intros row H. repeat (destruct H as [<-|H]; [reflexivity|]). contradiction.
  - intros i j Hi Hj. do 5 (destruct i as [|i]; [do 5 (destruct j as [|j]; [reflexivity|]); lia|]). lia.
Qed.
Lemma sp_positive : positive 5 sp_C.
Proof.
  intros i j H. do 5 (destruct i as [|i]; [do 5 (destruct j as [|j]; [first [reflexivity|lia]|]); lia|]). lia.
Qed.
Example C44_nonvacuous : regular sp_m 5 sp_C /\ positive 5 sp_C /\
  spearman_coeffs sp_m = Ok [(2, 2, Fin 1); (3, 1, Fin 1)]%Z /\
  spearman_coeffs dev_m <> spearman_coeffs sp_m /\
  spearman_coeffs ex_m = Ok [(2, 1, Fin (- (1))%Qc)]%Z.
Proof.
  split; [apply sp_regular|]. split; [apply sp_positive|]. split; [vm_compute; reflexivity|].
  split; [vm_compute; discriminate|vm_compute; reflexivity].
Qed.

(** ** C45.  E_Z and V_Z as coded, for every number n >= 1 of low and high ratios. *)
Theorem C45_exact_moments : forall n, 1 <= n ->
  e_z n = mean_half n (fun s => qn (Nat.min s (n - s))) /\
  v_z n = var_half n (fun s => qn (Nat.min s (n - s))).
Proof. intros n H. split; [exact (e_z_mean n H)|exact (v_z_var n H)]. Qed.
Print Assumptions C45_exact_moments.

(** The table: row j (2 <= j <= n-1) counts the link ratios of calendar diagonal j
    below and above the median of their development period, except those [near] it;
    Z, n, E_Z and V_Z follow. *)
Theorem C45_calendar_year_table :
  forall (m : lmat) (n : nat) (C : nat -> nat -> Qc) (med : nat -> Qc),
  regular m n C -> positive n C -> 2 < n ->
  evenly_spaced (firstn (n - 1) (m_cols m)) -> evenly_spaced (firstn (n - 1) (m_idx m)) ->
  let F i p := (C i (S p) / C i p)%Qc in
  (forall p, p < n - 1 -> is_median (map (fun i => F i p) (seq 0 (n - 1 - p))) (med p)) ->
  exists rows, cy_effects_table m = Ok rows /\ map y_j rows = seq 2 (n - 2) /\
    forall r, In r rows ->
      y_S r = on_diagonal (y_j r) (fun i p => qcltb (F i p) (med p) && negb (near (F i p) (med p))) /\
      y_L r = on_diagonal (y_j r) (fun i p => qcltb (med p) (F i p) && negb (near (F i p) (med p))) /\
      y_Z r = Nat.min (y_S r) (y_L r) /\ y_n r = y_S r + y_L r /\
      (1 <= y_n r ->
        y_E r = Some (mean_half (y_n r) (fun s => qn (Nat.min s (y_n r - s)))) /\
        y_V r = Some (var_half (y_n r) (fun s => qn (Nat.min s (y_n r - s))))).
Proof. exact c45. Qed.
Print Assumptions C45_calendar_year_table.

(** The table exists exactly for triangles of at least three origins whose labels, the
    last ones apart, are evenly spaced; all others raise ValueError. *)
Theorem C45_spacing :
  forall (m : lmat) (n : nat) (C : nat -> nat -> Qc), regular m n C -> positive n C -> 1 < n ->
  (cy_effects_table m = Err ValueError <->
   ~ (2 < n /\ evenly_spaced (firstn (n - 1) (m_cols m)) /\ evenly_spaced (firstn (n - 1) (m_idx m)))) /\
  ((exists rows, cy_effects_table m = Ok rows) \/ cy_effects_table m = Err ValueError).
Proof. exact c45_spacing. Qed.
Print Assumptions C45_spacing.

(** Medians exist and are unique. *)
Theorem C45_medians : forall n C p, p < n - 1 ->
  (exists q, is_median (map (fun i => (C i (S p) / C i p)%Qc) (seq 0 (n - 1 - p))) q) /\
  forall l q r, is_median l q -> is_median l r -> q = r.
Proof. intros n C p H. split; [exact (c45_medians n C p H)|exact is_median_unique]. Qed.
Print Assumptions C45_medians.

(** Full claim: S and L count exactly the ratios below and above the median.  Proved
    when no ratio different from its median is within the tolerance of it. *)
Theorem C45_counts_partial :
  forall (m : lmat) (n : nat) (C : nat -> nat -> Qc) (med : nat -> Qc),
  regular m n C -> positive n C -> 2 < n ->
  evenly_spaced (firstn (n - 1) (m_cols m)) -> evenly_spaced (firstn (n - 1) (m_idx m)) ->
  let F i p := (C i (S p) / C i p)%Qc in
  (forall p, p < n - 1 -> is_median (map (fun i => F i p) (seq 0 (n - 1 - p))) (med p)) ->
  (forall i p, i + p < n - 1 -> F i p <> med p -> near (F i p) (med p) = false) ->
  exists rows, cy_effects_table m = Ok rows /\ map y_j rows = seq 2 (n - 2) /\
    forall r, In r rows ->
      y_S r = on_diagonal (y_j r) (fun i p => qcltb (F i p) (med p)) /\
      y_L r = on_diagonal (y_j r) (fun i p => qcltb (med p) (F i p)).
Proof. exact c45_partial. Qed.
Print Assumptions C45_counts_partial.

(** Medians of sp_m by column: 1.25, 2, 2.5, 2. *)
Definition sp_med (p : nat) : Qc := nth p [(qz 5 / qz 4)%Qc; qz 2; (qz 5 / qz 2)%Qc; qz 2] 0%Qc.
Lemma sp_median p : p < 4 ->
  is_median (map (fun i => (sp_C i (S p) / sp_C i p)%Qc) (seq 0 (5 - 1 - p))) (sp_med p).
Proof.
  intro H. assert (Q : sp_med p = qmedian (map (fun i => (sp_C i (S p) / sp_C i p)%Qc) (seq 0 (5 - 1 - p)))).
  { do 4 (destruct p as [|p]; [apply Qc_is_canon; vm_compute; reflexivity|]). lia. }
  rewrite Q. apply qmedian_spec. replace (5 - 1 - p) with (S (3 - p)) by lia. discriminate.
Qed.
Lemma sp_spaced : evenly_spaced (m_cols sp_m) /\ evenly_spaced (m_idx sp_m).
Proof.
  split; (exists 1%Z; split; [lia|]; simpl length; intros j Hj; do 4 (destruct j as [|j]; [reflexivity|]); lia).
Qed.
Lemma sp_spaced' : evenly_spaced (firstn 4 (m_cols sp_m)) /\ evenly_spaced (firstn 4 (m_idx sp_m)).
Proof. split; apply evenly_firstn; apply sp_spaced. Qed.
Example C45_nonvacuous : regular sp_m 5 sp_C /\ positive 5 sp_C /\
  (evenly_spaced (firstn 4 (m_cols sp_m)) /\ evenly_spaced (firstn 4 (m_idx sp_m))) /\
  (forall p, p < 4 -> is_median (map (fun i => (sp_C i (S p) / sp_C i p)%Qc) (seq 0 (5 - 1 - p))) (sp_med p)) /\
  (forall i p, i + p < 4 -> (sp_C i (S p) / sp_C i p)%Qc <> sp_med p ->
     near (sp_C i (S p) / sp_C i p)%Qc (sp_med p) = false) /\
  (exists rows, cy_effects_table sp_m = Ok rows /\
     map (fun r => (y_j r, y_S r, y_L r, y_Z r)) rows = [(2, 2, 0, 0); (3, 1, 1, 1); (4, 0, 3, 0)]).
Proof.
  split; [apply sp_regular|]. split; [apply sp_positive|]. split; [apply sp_spaced'|]. split; [apply sp_median|]. split.
  - intros i p H. do 4 (destruct i as [|i]; [do 4 (destruct p as [|p];
      [first [lia | intros _; vm_compute; reflexivity | intro Q; exfalso; apply Q; apply Qc_is_canon; vm_compute; reflexivity]|]); lia|]). lia.
  - eexists. split; [vm_compute; reflexivity|]. vm_compute. reflexivity.
Qed.

(** Uneven periods raise; an uneven last period does not. *)
Example C45_spacing_nonvacuous :
  cy_effects_table (mkMat (m_idx sp_m) [1; 2; 4; 5; 6]%Z (m_cells sp_m)) = Err ValueError /\
  exists rows, cy_effects_table (mkMat (m_idx sp_m) [1; 2; 3; 4; 9]%Z (m_cells sp_m)) = Ok rows.
Proof. split; [vm_compute; reflexivity|]. eexists. vm_compute. reflexivity. Qed.

(** Without that hypothesis the claim fails: a triangle whose link ratio 1.000001 lies
    above the median 1 is counted neither low nor high. *)
Definition tol_C (i j : nat) : Qc :=
  qz (nth j (nth i [[1000000; 1000000; 1000000; 1000000]; [1000000; 1000001; 1000001; 0]; [1000000; 1000000; 0; 0]; [1000000; 0; 0; 0]] []) 0)%Z.
Definition tol_m : lmat := mkMat [1; 2; 3; 4]%Z [1; 2; 3; 4]%Z
  (map (fun i => map (fun j => if i + j <? 4 then Fin (tol_C i j) else NaN) (seq 0 4)) (seq 0 4)).
Theorem C45_counts_refuted : exists m n C,
  regular m n C /\ positive n C /\ evenly_spaced (m_cols m) /\ evenly_spaced (m_idx m) /\
  let F i p := (C i (S p) / C i p)%Qc in
  exists med rows r, (forall p, p < n - 1 -> is_median (map (fun i => F i p) (seq 0 (n - 1 - p))) (med p)) /\
    cy_effects_table m = Ok rows /\ In r rows /\
    y_L r <> on_diagonal (y_j r) (fun i p => qcltb (med p) (F i p)).
Proof.
  exists tol_m, 4, tol_C. split.
  { repeat split; simpl; auto.
    - repeat constructor.
    - repeat constructor.
    - intros row H. repeat (destruct H as [<-|H]; [reflexivity|]). contradiction.
    - intros i j Hi Hj. do 4 (destruct i as [|i]; [do 4 (destruct j as [|j]; [reflexivity|]); lia|]). lia. }
  split.
  { intros i j H. do 4 (destruct i as [|i]; [do 4 (destruct j as [|j]; [first [reflexivity|lia]|]); lia|]). lia. }
  split. { exists 1%Z. split; [lia|]. simpl length. intros j Hj. do 3 (destruct j as [|j]; [reflexivity|]). lia. }
  split. { exists 1%Z. split; [lia|]. simpl length. intros j Hj. do 3 (destruct j as [|j]; [reflexivity|]). lia. }
  cbv zeta. exists (fun _ => 1%Qc). eexists. eexists. split.
  - intros p Hp.
    assert (Q : 1%Qc = qmedian (map (fun i => (tol_C i (S p) / tol_C i p)%Qc) (seq 0 (4 - 1 - p)))).
    { do 3 (destruct p as [|p]; [apply Qc_is_canon; vm_compute; reflexivity|]). simpl in Hp. lia. }
    rewrite Q. apply qmedian_spec. replace (4 - 1 - p) with (S (2 - p)) by lia. discriminate.
  - split; [vm_compute; reflexivity|]. split; [left; reflexivity|]. vm_compute. discriminate.
Qed.
Print Assumptions C45_counts_refuted.
