(** C83 (losses that emerge as estimated), C84 (what an estimate depends on) and C85
    (single origins restated). *)

From Coq Require Import String Ascii QArith Qcanon ZArith List Bool Lia Sorting.Sorted.
From Verif Require Import Val Frame Triangle A2A Base Mack Diag QcLib Spec SpecRel SpecEmerge ExTri ExMack AvgFacts EmergeClaims EmergeClaims2.
Import ListNotations.
Open Scope list_scope.
Open Scope nat_scope.

(** ** C83.  A year later every origin has developed exactly by the factor of its latest
    period ([emerges]; the oldest one by the tail factor) and a new origin has been added:
    the averages of all the years, and with a tail factor of 1 the ultimates of the
    earlier origins, are what they were; every reserve falls by the losses that emerged.
    [mean_like], [stable_mean]: what is used of the geometric mean. *)
Theorem C83_base_cl_emergence :
  forall (gm : list val -> val) (m m' : lmat) (n : nat) (C C' : nat -> nat -> Qc) (ind ind' : list (list val)) (w w' : nat -> nat -> bool)
         (v : string) (cl cl' : list nat) (s : string) (tail : Qc) (r : cl_result) (f : nat -> Qc),
  regular m n C -> positive n C -> 2 < n -> tail_fits (m_cols m) -> clvi m = Ok cl ->
  regular m' (S n) C' -> positive (S n) C' -> tail_fits (m_cols m') -> clvi m' = Ok cl' ->
  mean_like gm -> stable_mean gm -> all_years s ->
  (forall i j, i + j < n - 1 -> cell ind i j = Fin (if w i j then 1 else 0)%Qc) ->
  (forall j, j < n - 1 -> w (n - 2 - j) j = true) ->
  (forall i j, i + j < n -> cell ind' i j = Fin (if w' i j then 1 else 0)%Qc) ->
  (forall j, j < n -> w' (n - 1 - j) j = true) ->
  kept_inclusions n w w' ->
  snd (base_cl gm (mkTri m "origin" "dev" v) cl ind (SelLabel s) (Fin tail)) = Ok r ->
  map snd (c_ldfs r) = map (fun j => Fin (f j)) (seq 0 n) ->
  emerges n C C' f ->
  exists r', snd (base_cl gm (mkTri m' "origin" "dev" v) cl' ind' (SelLabel s) (Fin 1%Qc)) = Ok r' /\
    map snd (c_ldfs r') = map snd (c_ldfs r) ++ [Fin 1%Qc] /\
    map s_ultimate (firstn n (c_rows r')) = map s_ultimate (c_rows r) /\
    (forall i, i < n -> nth i (map s_reserve (c_rows r')) NaN
       = vsub (nth i (map s_reserve (c_rows r)) NaN) (Fin (C' i (n - i)%nat - C i (n - 1 - i)%nat)%Qc)).
Proof. exact base_emerges. Qed.
Print Assumptions C83_base_cl_emergence.

(** mack_cl, for every alpha and every choice of weights.  The estimated variances shrink
    by the ratio of the degrees of freedom. *)
Theorem C83_mack_cl_emergence :
  forall (m m' : lmat) (n : nat) (C C' : nat -> nat -> Qc) (ind ind' : list (list val)) (W W' : nat -> nat -> Qc) (alpha : nat)
         (v : string) (cl cl' : list nat) (tail tail' : val) (k : mack_result) (f : nat -> Qc),
  regular m n C -> positive n C -> 3 < n -> tail_fits (m_cols m) -> clvi m = Ok cl -> weights ind n W ->
  regular m' (S n) C' -> positive (S n) C' -> tail_fits (m_cols m') -> clvi m' = Ok cl' -> weights ind' (S n) W' ->
  kept_inclusions n W W' ->
  mack_cl (mkTri m "origin" "dev" v) cl ind alpha tail = Ok k ->
  map snd (c_ldfs (k_cl k)) = map (fun j => Fin (f j)) (seq 0 n) ->
  emerges n C C' f ->
  exists k', mack_cl (mkTri m' "origin" "dev" v) cl' ind' alpha tail' = Ok k' /\
    map snd (c_ldfs (k_cl k')) = map snd (c_ldfs (k_cl k)) ++ [Fin 1%Qc] /\
    map s_ultimate (firstn n (c_rows (k_cl k'))) = map s_ultimate (c_rows (k_cl k)) /\
    (forall i, i < n -> nth i (map s_reserve (c_rows (k_cl k'))) NaN
       = vsub (nth i (map s_reserve (c_rows (k_cl k))) NaN) (Fin (C' i (n - i)%nat - C i (n - 1 - i)%nat)%Qc)) /\
    (forall j, j < n - 2 -> nth j (map snd (k_devpvar k')) NaN
       = vmul (nth j (map snd (k_devpvar k)) NaN) (Fin (qn (n - 2 - j) / qn (n - 1 - j))%Qc)).
Proof. exact mack_emerges. Qed.
Print Assumptions C83_mack_cl_emergence.

(** The triangle of ExTri a year later. *)
Definition em_C (i j : nat) : Qc :=
  if i + j <? 4 then ex_C i j else if i <? 4 then (ex_C i (3 - i)%nat * ex_f (3 - i)%nat)%Qc else qz 140.
Definition em_m : lmat := mkMat [2001; 2002; 2003; 2004; 2005]%Z [12; 24; 36; 48; 60]%Z
  (map (fun i => map (fun j => if i + j <? 5 then Fin (em_C i j) else NaN) (seq 0 5)) (seq 0 5)).
Lemma em_regular : regular em_m 5 em_C.
Proof.
  split; [repeat constructor|]. split; [repeat constructor|]. do 3 (split; [reflexivity|]). split.
  - intros row H. unfold em_m in H. cbn [m_cells] in H. apply in_map_iff in H as (i & <- & _). rewrite map_length, seq_length. reflexivity.
  - intros i j Hi Hj. do 5 (destruct i as [|i]; [do 5 (destruct j as [|j]; [reflexivity|]); lia|]). lia.
Qed.
Lemma em_positive : positive 5 em_C.
Proof.
  intros i j H. do 5 (destruct i as [|i]; [do 5 (destruct j as [|j]; [first [vm_compute; reflexivity|lia]|]); lia|]). lia.
Qed.
Lemma em_emerges : emerges 4 ex_C em_C ex_f.
Proof.
  split.
  - intros i j H. unfold em_C. destruct (Nat.ltb_spec (i + j) 4); [reflexivity|lia].
  - intros i H. unfold em_C. destruct (Nat.ltb_spec (i + (4 - i)) 4); [lia|]. destruct (Nat.ltb_spec i 4); [|lia].
    replace (4 - 1 - i) with (3 - i) by lia. reflexivity.
Qed.
Lemma em_fits : tail_fits (m_cols em_m).
Proof. split; [intros j Hj; cbn in Hj; do 3 (destruct j as [|j]; [cbn; lia|]); lia|exists 0; cbn; lia]. Qed.
Lemma ex_gm_stable : stable_mean ex_gm.
Proof.
  intros l x N E. unfold ex_gm in *. rewrite QcLib.vmean_fin in * by (auto; destruct l; discriminate).
  f_equal. apply (mean_snoc_eq l x N). unfold mean. congruence.
Qed.
Example C83_nonvacuous : regular em_m 5 em_C /\ positive 5 em_C /\ emerges 4 ex_C em_C ex_f /\ tail_fits (m_cols em_m) /\
  stable_mean ex_gm /\ clvi em_m = Ok [4; 3; 2; 1; 0] /\
  match snd (base_cl ex_gm (mkTri em_m "origin" "dev" "value") [4; 3; 2; 1; 0] (a2aind_init em_m) (SelLabel "all-weighted") (vz 1)) with
  | Ok r => vlistb (firstn 4 (map s_ultimate (c_rows r))) (map s_ultimate (c_rows (k_cl ex_k))) = true
  | Err _ => False
  end.
Proof.
  split; [apply em_regular|]. split; [apply em_positive|]. split; [apply em_emerges|]. split; [apply em_fits|].
  split; [apply ex_gm_stable|]. split; vm_compute; reflexivity.
Qed.

(** ** C84.  An origin's factors and estimates depend only on the losses observed (by any
    origin) at and after its latest period. *)
Theorem C84_base_cl_depends_on :
  forall (gm : list val -> val) (m m' : lmat) (n : nat) (C C' : nat -> nat -> Qc) (d : nat) (ind ind' : list (list val))
         (w w' : nat -> nat -> bool) (v : string) (cl : list nat) (s : string) (tail : Qc) (r r' : cl_result) (f f' : nat -> Qc),
  regular m n C -> regular m' n C' -> positive n C -> positive n C' -> 2 < n -> d <= n ->
  m_idx m' = m_idx m -> m_cols m' = m_cols m -> tail_fits (m_cols m) -> clvi m = Ok cl ->
  (forall i j, i + j < n - 1 -> cell ind i j = Fin (if w i j then 1 else 0)%Qc) ->
  (forall i j, i + j < n - 1 -> cell ind' i j = Fin (if w' i j then 1 else 0)%Qc) ->
  (forall j, j < n - 1 -> w (n - 2 - j) j = true /\ w' (n - 2 - j) j = true) ->
  same_from d n C C' -> (forall i j, i + j < n - 1 -> d <= j -> w' i j = w i j) ->
  snd (base_cl gm (mkTri m "origin" "dev" v) cl ind (SelLabel s) (Fin tail)) = Ok r ->
  snd (base_cl gm (mkTri m' "origin" "dev" v) cl ind' (SelLabel s) (Fin tail)) = Ok r' ->
  map snd (c_ldfs r) = map (fun j => Fin (f j)) (seq 0 n) -> map snd (c_ldfs r') = map (fun j => Fin (f' j)) (seq 0 n) ->
  skipn d (c_ldfs r') = skipn d (c_ldfs r) /\ firstn (n - d) (c_rows r') = firstn (n - d) (c_rows r).
Proof. exact base_from. Qed.
Print Assumptions C84_base_cl_depends_on.

(** mack_cl: the factors and estimates always; the variances and errors if the periods
    that agree include the two used to extrapolate the last variance. *)
Theorem C84_mack_cl_depends_on_partial :
  forall (m m' : lmat) (n : nat) (C C' : nat -> nat -> Qc) (d : nat) (ind ind' : list (list val)) (W W' : nat -> nat -> Qc)
         (alpha : nat) (v : string) (cl : list nat) (tail tail' : val) (k k' : mack_result),
  regular m n C -> regular m' n C' -> positive n C -> positive n C' -> 3 < n -> d <= n ->
  m_idx m' = m_idx m -> m_cols m' = m_cols m -> tail_fits (m_cols m) -> clvi m = Ok cl ->
  weights ind n W -> weights ind' n W' ->
  same_from d n C C' -> (forall i j, i + j < n - 1 -> d <= j -> W' i j = W i j) ->
  mack_cl (mkTri m "origin" "dev" v) cl ind alpha tail = Ok k ->
  mack_cl (mkTri m' "origin" "dev" v) cl ind' alpha tail' = Ok k' ->
  skipn d (c_ldfs (k_cl k')) = skipn d (c_ldfs (k_cl k)) /\
  firstn (n - d) (c_rows (k_cl k')) = firstn (n - d) (c_rows (k_cl k)) /\
  (d <= n - 4 ->
    skipn d (k_devpvar k') = skipn d (k_devpvar k) /\ skipn d (k_ldfvar k') = skipn d (k_ldfvar k) /\
    firstn (n - d) (k_proc k') = firstn (n - d) (k_proc k) /\
    firstn (n - d) (k_param k') = firstn (n - d) (k_param k) /\
    firstn (n - d) (k_mse k') = firstn (n - d) (k_mse k)).
Proof. exact mack_from. Qed.
Print Assumptions C84_mack_cl_depends_on_partial.

(** Other first losses: the same estimates from the second period on. *)
Definition loc_C (i j : nat) : Qc := if j =? 0 then qz (nth i [70; 140; 95; 60] 1)%Z else ex_C i j.
Definition loc_m : lmat := mkMat (m_idx ex_m) (m_cols ex_m)
  [[vz 70; vz 150; vz 180; vz 189]; [vz 140; vz 176; vz 200; NaN]; [vz 95; vz 120; NaN; NaN]; [vz 60; NaN; NaN; NaN]].
Lemma loc_regular : regular loc_m 4 loc_C.
Proof.
  split; [repeat constructor|]. split; [repeat constructor|]. do 3 (split; [reflexivity|]). split.
  - intros row H. repeat (destruct H as [<-|H]; [reflexivity|]). contradiction.
  - intros i j Hi Hj. do 4 (destruct i as [|i]; [do 4 (destruct j as [|j]; [reflexivity|]); lia|]). lia.
Qed.
Lemma loc_positive : positive 4 loc_C.
Proof.
  intros i j H. do 4 (destruct i as [|i]; [do 4 (destruct j as [|j]; [first [reflexivity|lia]|]); lia|]). lia.
Qed.
Lemma loc_same : same_from 1 4 ex_C loc_C.
Proof. intros i j _ H. unfold loc_C. destruct (Nat.eqb_spec j 0); [lia|reflexivity]. Qed.
Example C84_nonvacuous : regular loc_m 4 loc_C /\ positive 4 loc_C /\ same_from 1 4 ex_C loc_C /\
  match snd (base_cl ex_gm (mkTri loc_m "origin" "dev" "value") [3; 2; 1; 0] ex_ind (SelLabel "all-medial") (vz 1)),
        snd (base_cl ex_gm (mkTri ex_m "origin" "dev" "value") [3; 2; 1; 0] ex_ind (SelLabel "all-medial") (vz 1)) with
  | Ok r', Ok r => vlistb (map s_ultimate (firstn 3 (c_rows r'))) (map s_ultimate (firstn 3 (c_rows r))) = true /\
                   vlistb (map s_ultimate (c_rows r')) (map s_ultimate (c_rows r)) = false
  | _, _ => False
  end.
Proof.
  split; [apply loc_regular|]. split; [apply loc_positive|]. split; [apply loc_same|]. vm_compute. split; reflexivity.
Qed.

(** The errors of the origins whose period is not affected do change: the variance of the
    last link ratio is extrapolated from earlier periods. *)
Theorem C84_errors_refuted :
  exists (m m' : lmat) (C C' : nat -> nat -> Qc) (d : nat) (cl : list nat) (k k' : mack_result),
    regular m 4 C /\ regular m' 4 C' /\ positive 4 C /\ positive 4 C' /\ d < 4 /\
    m_idx m' = m_idx m /\ m_cols m' = m_cols m /\ tail_fits (m_cols m) /\ clvi m = Ok cl /\ same_from d 4 C C' /\
    mack_cl (mkTri m "origin" "dev" "value") cl (a2aind_init m) 1 (vz 1) = Ok k /\
    mack_cl (mkTri m' "origin" "dev" "value") cl (a2aind_init m') 1 (vz 1) = Ok k' /\
    firstn (4 - d) (k_mse k') <> firstn (4 - d) (k_mse k).
Proof.
  exists ex_m, loc_m, ex_C, loc_C, 1, [3; 2; 1; 0], ex_k,
    (ok_or no_result (mack_cl (mkTri loc_m "origin" "dev" "value") [3; 2; 1; 0] (a2aind_init loc_m) 1 (vz 1))).
  split; [apply ex_regular|]. split; [apply loc_regular|]. split; [apply ex_positive|]. split; [apply loc_positive|].
  split; [lia|]. split; [reflexivity|]. split; [reflexivity|]. split; [apply ex_spaced|]. split; [apply ex_clvi|].
  split; [apply loc_same|]. split; [apply ex_k_ok|]. split; [vm_compute; reflexivity|].
  intro H. assert (Q : vlistb (firstn (4 - 1) (k_mse (ok_or no_result (mack_cl (mkTri loc_m "origin" "dev" "value") [3; 2; 1; 0] (a2aind_init loc_m) 1 (vz 1)))))
                        (firstn (4 - 1) (k_mse ex_k)) = false) by (vm_compute; reflexivity).
  rewrite H in Q. vm_compute in Q. discriminate.
Qed.
Print Assumptions C84_errors_refuted.

(** ** C85.  One origin's losses restated by a factor (say per unit of exposure): the
    averages that do not weight by volume keep every factor, and only that origin's
    figures are restated. *)
Theorem C85_base_cl_single_origins :
  forall (gm : list val -> val) (m m' : lmat) (n : nat) (C : nat -> nat -> Qc) (e : nat -> Qc) (ind : list (list val))
         (w : nat -> nat -> bool) (v : string) (cl : list nat) (s : string) (tail : Qc) (r : cl_result) (f : nat -> Qc),
  regular m n C -> regular m' n (fun i j => e i * C i j)%Qc -> positive n C -> (forall i, i < n -> (0 < e i)%Qc) -> 2 < n ->
  m_idx m' = m_idx m -> m_cols m' = m_cols m -> tail_fits (m_cols m) -> clvi m = Ok cl ->
  (forall i j, i + j < n - 1 -> cell ind i j = Fin (if w i j then 1 else 0)%Qc) ->
  (forall j, j < n - 1 -> w (n - 2 - j) j = true) ->
  ~ volume_weighted s ->
  snd (base_cl gm (mkTri m "origin" "dev" v) cl ind (SelLabel s) (Fin tail)) = Ok r ->
  map snd (c_ldfs r) = map (fun j => Fin (f j)) (seq 0 n) ->
  exists r', snd (base_cl gm (mkTri m' "origin" "dev" v) cl ind (SelLabel s) (Fin tail)) = Ok r' /\
    c_ldfs r' = c_ldfs r /\
    c_rows r' = map (fun p => in_units (e (fst p)) (snd p)) (combine (seq 0 n) (c_rows r)).
Proof. exact base_rows. Qed.
Print Assumptions C85_base_cl_single_origins.

(** The same for mack_cl with alpha = 0: process errors by the factor, parameter errors
    by its square. *)
Theorem C85_mack_cl_single_origins :
  forall (m m' : lmat) (n : nat) (C : nat -> nat -> Qc) (e : nat -> Qc) (ind : list (list val)) (W : nat -> nat -> Qc)
         (v : string) (cl : list nat) (tail : val) (k : mack_result),
  regular m n C -> regular m' n (fun i j => e i * C i j)%Qc -> positive n C -> (forall i, i < n -> (0 < e i)%Qc) -> 3 < n ->
  m_idx m' = m_idx m -> m_cols m' = m_cols m -> tail_fits (m_cols m) -> clvi m = Ok cl -> weights ind n W ->
  mack_cl (mkTri m "origin" "dev" v) cl ind 0 tail = Ok k ->
  exists k', mack_cl (mkTri m' "origin" "dev" v) cl ind 0 tail = Ok k' /\
    c_ldfs (k_cl k') = c_ldfs (k_cl k) /\
    c_rows (k_cl k') = map (fun p => in_units (e (fst p)) (snd p)) (combine (seq 0 n) (c_rows (k_cl k))) /\
    k_devpvar k' = k_devpvar k /\ k_ldfvar k' = k_ldfvar k /\
    k_proc k' = map (fun p => vmul (Fin (e (fst p))) (snd p)) (combine (seq 0 n) (k_proc k)) /\
    k_param k' = map (fun p => vmul (Fin (e (fst p) ^ 2)%Qc) (snd p)) (combine (seq 0 n) (k_param k)).
Proof. exact mack_rows. Qed.
Print Assumptions C85_mack_cl_single_origins.

(** The tests of Mack's assumptions do not change. *)
Theorem C85_tests_single_origins :
  forall (m m' : lmat) (n : nat) (C : nat -> nat -> Qc) (e : nat -> Qc),
  regular m n C -> regular m' n (fun i j => e i * C i j)%Qc -> positive n C -> (forall i, i < n -> (0 < e i)%Qc) -> 1 < n ->
  m_idx m' = m_idx m -> m_cols m' = m_cols m ->
  a2a m' = a2a m /\
  spearman_coeffs m' = spearman_coeffs m /\ spearman_total m' = spearman_total m /\ cy_effects_table m' = cy_effects_table m.
Proof.
  intros. split; [eapply rows_a2a; eauto|]. apply rows_tests; auto. eapply rows_a2a; eauto.
Qed.
Print Assumptions C85_tests_single_origins.

Definition exp_e (i : nat) : Qc := qz (nth i [1; 3; 1; 2] 1)%Z.
Definition exp_m : lmat := mkMat (m_idx ex_m) (m_cols ex_m)
  [[vz 100; vz 150; vz 180; vz 189]; [vz 330; vz 528; vz 600; NaN]; [vz 90; vz 120; NaN; NaN]; [vz 260; NaN; NaN; NaN]].
Lemma exp_regular : regular exp_m 4 (fun i j => exp_e i * ex_C i j)%Qc.
Proof.
  split; [repeat constructor|]. split; [repeat constructor|]. do 3 (split; [reflexivity|]). split.
  - intros row H. repeat (destruct H as [<-|H]; [reflexivity|]). contradiction.
  - intros i j Hi Hj. do 4 (destruct i as [|i]; [do 4 (destruct j as [|j]; [vm_compute; reflexivity|]); lia|]). lia.
Qed.
Example C85_nonvacuous : regular exp_m 4 (fun i j => exp_e i * ex_C i j)%Qc /\ (forall i, i < 4 -> (0 < exp_e i)%Qc) /\
  ~ volume_weighted "simple-2" /\
  match snd (base_cl ex_gm (mkTri exp_m "origin" "dev" "value") [3; 2; 1; 0] ex_ind (SelLabel "simple-2") (vz 1)),
        snd (base_cl ex_gm (mkTri ex_m "origin" "dev" "value") [3; 2; 1; 0] ex_ind (SelLabel "simple-2") (vz 1)) with
  | Ok r', Ok r => exists f, map snd (c_ldfs r) = map (fun j => Fin (f j)) (seq 0 4) /\
      veqb (nth 1 (map s_reserve (c_rows r')) NaN) (vmul (vz 3) (nth 1 (map s_reserve (c_rows r)) NaN)) = true
  | _, _ => False
  end.
Proof.
  split; [apply exp_regular|]. split.
  { intros i H. do 4 (destruct i as [|i]; [vm_compute; reflexivity|]). lia. }
  split. { intros [H|(k & H)]; discriminate H. }
  destruct (snd (base_cl ex_gm (mkTri ex_m "origin" "dev" "value") [3; 2; 1; 0] ex_ind (SelLabel "simple-2") (vz 1))) as [r|e] eqn:E;
    [|vm_compute in E; discriminate].
  exists (fun j => num (nth j (map snd (c_ldfs r)) NaN)). vm_compute in E. injection E as <-. vm_compute. split; reflexivity.
Qed.

(** With volume weights restating one origin changes the factors, and so the other
    origins' estimates. *)
Theorem C85_volume_weighted_refuted :
  exists (m m' : lmat) (C : nat -> nat -> Qc) (e : nat -> Qc) (cl : list nat) (r r' : cl_result),
    regular m 4 C /\ regular m' 4 (fun i j => e i * C i j)%Qc /\ positive 4 C /\ (forall i, i < 4 -> (0 < e i)%Qc) /\
    m_idx m' = m_idx m /\ m_cols m' = m_cols m /\ tail_fits (m_cols m) /\ clvi m = Ok cl /\ e 2 = 1%Qc /\
    snd (base_cl ex_gm (mkTri m "origin" "dev" "value") cl (a2aind_init m) (SelLabel "all-weighted") (vz 1)) = Ok r /\
    snd (base_cl ex_gm (mkTri m' "origin" "dev" "value") cl (a2aind_init m') (SelLabel "all-weighted") (vz 1)) = Ok r' /\
    nth 2 (map s_ultimate (c_rows r')) NaN <> nth 2 (map s_ultimate (c_rows r)) NaN.
Proof.
  assert (Q : exists r r',
    snd (base_cl ex_gm (mkTri ex_m "origin" "dev" "value") [3; 2; 1; 0] (a2aind_init ex_m) (SelLabel "all-weighted") (vz 1)) = Ok r /\
    snd (base_cl ex_gm (mkTri exp_m "origin" "dev" "value") [3; 2; 1; 0] (a2aind_init exp_m) (SelLabel "all-weighted") (vz 1)) = Ok r' /\
    nth 2 (map s_ultimate (c_rows r')) NaN <> nth 2 (map s_ultimate (c_rows r)) NaN).
  { eexists _, _. split; [vm_compute; reflexivity|]. split; [vm_compute; reflexivity|]. vm_compute. discriminate. }
  destruct Q as (r & r' & Q1 & Q2 & Q3).
  exists ex_m, exp_m, ex_C, exp_e, [3; 2; 1; 0], r, r'.
  split; [apply ex_regular|]. split; [apply exp_regular|]. split; [apply ex_positive|].
  split. { intros i H. do 4 (destruct i as [|i]; [vm_compute; reflexivity|]). lia. }
  split; [reflexivity|]. split; [reflexivity|]. split; [apply ex_spaced|]. split; [apply ex_clvi|]. split; [vm_compute; apply Qc_is_canon; reflexivity|]. auto.
Qed.
Print Assumptions C85_volume_weighted_refuted.
