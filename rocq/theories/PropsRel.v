(** Results on related triangles: C52-C58, and C20 on the rows of a2a_avgs(). *)

From Coq Require Import String Ascii QArith Qcanon ZArith List Bool Lia Sorting.Sorted.
From Verif Require Import Val Frame Triangle A2A Base Mack QcLib Spec SpecRel ExTri ExMack RelClaims RelClaims2 RelClaims3.
Import ListNotations.
Open Scope list_scope.
Open Scope nat_scope.

(** ** C52.  Multiplying all losses by c > 0: mack_cl's factors and their variances stay,
    losses are multiplied by c, for alpha = 1 mean squared errors by c^2... *)
Theorem C52_mack_scaling_partial :
  forall (m m' : lmat) (n : nat) (C : nat -> nat -> Qc) (c : Qc),
  regular m n C -> regular m' n (fun i j => c * C i j)%Qc -> (0 < c)%Qc -> positive n C -> 3 < n ->
  m_idx m' = m_idx m -> m_cols m' = m_cols m -> tail_fits (m_cols m) ->
  forall (v : string) (cl : list nat) (ind : list (list val)) (W : nat -> nat -> Qc) (alpha : nat) (tail : val) (k : mack_result),
  clvi m = Ok cl -> weights ind n W ->
  mack_cl (mkTri m "origin" "dev" v) cl ind alpha tail = Ok k ->
  exists k', mack_cl (mkTri m' "origin" "dev" v) cl ind alpha tail = Ok k' /\
    c_ldfs (k_cl k') = c_ldfs (k_cl k) /\
    c_rows (k_cl k') = map (in_units c) (c_rows (k_cl k)) /\
    k_devpvar k' = map (fun p => (fst p, vmul (Fin (c ^ alpha)%Qc) (snd p))) (k_devpvar k) /\
    k_ldfvar k' = k_ldfvar k /\
    k_param k' = map (vmul (Fin (c ^ 2)%Qc)) (k_param k) /\
    k_proc k' = map (vmul (Fin (c ^ S alpha)%Qc)) (k_proc k) /\
    (alpha = 1 -> k_mse k' = map (vmul (Fin (c ^ 2)%Qc)) (k_mse k) /\ k_mse_total k' = vmul (Fin (c ^ 2)%Qc) (k_mse_total k)).
Proof. exact mack_scaling. Qed.
Print Assumptions C52_mack_scaling_partial.

Definition ex_m_cents : lmat :=
  mkMat (m_idx ex_m) (m_cols ex_m) (map (map (vmul (vz 100))) (m_cells ex_m)).
Lemma ex_cents_regular : regular ex_m_cents 4 (fun i j => qz 100 * ex_C i j)%Qc.
Proof.
  destruct ex_regular as (A & B & L1 & L2 & _).
  repeat split; auto.
  - intros row H. simpl in H. repeat (destruct H as [<-|H]; [reflexivity|]). contradiction.
  - intros i j Hi Hj. do 4 (destruct i as [|i]; [do 4 (destruct j as [|j]; [vm_compute; reflexivity|]); lia|]). lia.
Qed.
Example C52_nonvacuous : regular ex_m_cents 4 (fun i j => qz 100 * ex_C i j)%Qc /\ (0 < qz 100)%Qc /\
  weights (a2aind_init ex_m) 4 (fun _ _ => 1%Qc) /\
  match mack_cl (mkTri ex_m_cents "origin" "dev" "value") [3; 2; 1; 0] (a2aind_init ex_m) 1 (vz 1) with
  | Ok k => veqb (k_mse_total k) (vmul (vz 10000) (k_mse_total ex_k)) = true /\ vltb (vz 0) (k_mse_total ex_k) = true
  | Err _ => False
  end.
Proof.
  split; [apply ex_cents_regular|]. split; [reflexivity|]. split; [apply ex_weights|]. vm_compute. split; reflexivity.
Qed.

(** ... but for alpha = 0 and alpha = 2 the process error is multiplied by c and c^3:
    the standard error depends on the currency unit. *)
Theorem C52_other_alphas_refuted : forall alpha : nat, alpha = 0 \/ alpha = 2 ->
  exists (m m' : lmat) (C : nat -> nat -> Qc) (c : Qc) (cl : list nat) (k k' : mack_result),
    regular m 4 C /\ regular m' 4 (fun i j => c * C i j)%Qc /\ positive 4 C /\ (0 < c)%Qc /\
    m_idx m' = m_idx m /\ m_cols m' = m_cols m /\ tail_fits (m_cols m) /\ clvi m = Ok cl /\
    mack_cl (mkTri m "origin" "dev" "value") cl (a2aind_init m) alpha (vz 1) = Ok k /\
    mack_cl (mkTri m' "origin" "dev" "value") cl (a2aind_init m') alpha (vz 1) = Ok k' /\
    k_mse k' <> map (vmul (Fin (c ^ 2)%Qc)) (k_mse k) /\ k_mse_total k' <> vmul (Fin (c ^ 2)%Qc) (k_mse_total k).
Proof.
  intros alpha Ha. exists ex_m, ex_m_cents, ex_C, (qz 100), [3; 2; 1; 0].
  assert (Q : exists k k',
    mack_cl (mkTri ex_m "origin" "dev" "value") [3; 2; 1; 0] (a2aind_init ex_m) alpha (vz 1) = Ok k /\
    mack_cl (mkTri ex_m_cents "origin" "dev" "value") [3; 2; 1; 0] (a2aind_init ex_m_cents) alpha (vz 1) = Ok k' /\
    k_mse k' <> map (vmul (Fin (qz 100 ^ 2)%Qc)) (k_mse k) /\ k_mse_total k' <> vmul (Fin (qz 100 ^ 2)%Qc) (k_mse_total k)).
  { destruct Ha as [-> | ->].
    - eexists _, _. split; [vm_compute; reflexivity|]. split; [vm_compute; reflexivity|]. split; vm_compute; discriminate.
    - eexists _, _. split; [vm_compute; reflexivity|]. split; [vm_compute; reflexivity|]. split; vm_compute; discriminate. }
  destruct Q as (k & k' & Q1 & Q2 & Q3 & Q4). exists k, k'.
  split; [apply ex_regular|]. split; [apply ex_cents_regular|]. split; [apply ex_positive|]. split; [reflexivity|].
  split; [reflexivity|]. split; [reflexivity|]. split; [apply ex_spaced|]. split; [apply ex_clvi|]. auto.
Qed.
Print Assumptions C52_other_alphas_refuted.

(** For every alpha, the exact effect: with [e i] and [p i] the process and parameter
    error of origin [i] and [T] the total, the new errors are the following; an origin's
    mean squared error is multiplied by c^2 exactly when alpha is 1, the unit is
    unchanged or the origin has no process error; the total exactly when alpha is 1, the
    unit is unchanged or the total is made of parameter errors alone. *)
Theorem C52_every_alpha :
  forall (m m' : lmat) (n : nat) (C : nat -> nat -> Qc) (c : Qc),
  regular m n C -> regular m' n (fun i j => c * C i j)%Qc -> (0 < c)%Qc -> positive n C -> 3 < n ->
  m_idx m' = m_idx m -> m_cols m' = m_cols m -> tail_fits (m_cols m) ->
  forall (v : string) (cl : list nat) (ind : list (list val)) (W : nat -> nat -> Qc) (alpha : nat) (tail : val) (k : mack_result),
  clvi m = Ok cl -> weights ind n W ->
  mack_cl (mkTri m "origin" "dev" v) cl ind alpha tail = Ok k ->
  exists (k' : mack_result) (e p : nat -> Qc) (T : Qc),
    mack_cl (mkTri m' "origin" "dev" v) cl ind alpha tail = Ok k' /\
    k_proc k = map (fun i => Fin (e i)) (seq 0 n) /\ k_param k = map (fun i => Fin (p i)) (seq 0 n) /\
    k_mse k = map (fun i => Fin (e i + p i)%Qc) (seq 0 n) /\ k_mse_total k = Fin T /\
    k_mse k' = map (fun i => Fin (c ^ S alpha * e i + c ^ 2 * p i)%Qc) (seq 0 n) /\
    k_mse_total k' = Fin (c ^ S alpha * (T - sumf 0 n p) + c ^ 2 * sumf 0 n p)%Qc /\
    (forall i, i < n -> (nth i (k_mse k') NaN = vmul (Fin (c ^ 2)%Qc) (nth i (k_mse k) NaN) <->
                         alpha = 1 \/ c = 1%Qc \/ e i = 0%Qc)) /\
    (k_mse_total k' = vmul (Fin (c ^ 2)%Qc) (k_mse_total k) <-> alpha = 1 \/ c = 1%Qc \/ T = sumf 0 n p).
Proof. exact mack_scaling_all. Qed.
Print Assumptions C52_every_alpha.

(** ** C53.  Two triangles with the same cells and different labels (the last
    step between periods being the smallest): the same averages and estimates, under the new labels. *)
Theorem C53_averages_ignore_labels :
  forall (gm : list val -> val) (m m' : lmat) (n : nat) (C : nat -> nat -> Qc) (ind : list (list val)),
  regular m n C -> regular m' n C -> positive n C -> 1 < n ->
  a2a_avgs gm m' ind = a2a_avgs gm m ind.
Proof. exact avgs_labels. Qed.
Print Assumptions C53_averages_ignore_labels.

Theorem C53_base_cl_ignores_labels :
  forall (gm : list val -> val) (m m' : lmat) (n : nat) (C : nat -> nat -> Qc) (v : string) (cl : list nat) (ind : list (list val))
         (sel : sel_arg) (tail : val) (sel' : sel_arg) (r : cl_result) (f : nat -> Qc),
  regular m n C -> regular m' n C -> positive n C -> 2 < n ->
  tail_fits (m_cols m) -> tail_fits (m_cols m') -> clvi m = Ok cl -> (forall s, sel <> SelSeries s) ->
  base_cl gm (mkTri m "origin" "dev" v) cl ind sel tail = (sel', Ok r) ->
  c_ldfs r = map (fun j => (nth j (m_cols m) 0%Z, Fin (f j))) (seq 0 n) ->
  clvi m' = Ok cl /\ exists r', base_cl gm (mkTri m' "origin" "dev" v) cl ind sel tail = (sel', Ok r') /\
    map figures (c_rows r') = map figures (c_rows r) /\ c_total r' = c_total r /\
    map snd (c_ldfs r') = map snd (c_ldfs r) /\ c_trisqrd r' = c_trisqrd r /\
    map s_origin (c_rows r') = m_idx m' /\ map s_maturity (c_rows r') = rev (m_cols m') /\ map fst (c_ldfs r') = m_cols m'.
Proof. exact base_labels. Qed.
Print Assumptions C53_base_cl_ignores_labels.

Theorem C53_mack_cl_ignores_labels :
  forall (m m' : lmat) (n : nat) (C : nat -> nat -> Qc) (v : string) (cl : list nat) (ind : list (list val))
         (W : nat -> nat -> Qc) (alpha : nat) (tail : val) (k : mack_result),
  regular m n C -> regular m' n C -> positive n C -> 3 < n ->
  tail_fits (m_cols m) -> tail_fits (m_cols m') -> clvi m = Ok cl -> weights ind n W ->
  mack_cl (mkTri m "origin" "dev" v) cl ind alpha tail = Ok k ->
  exists k', mack_cl (mkTri m' "origin" "dev" v) cl ind alpha tail = Ok k' /\
    map figures (c_rows (k_cl k')) = map figures (c_rows (k_cl k)) /\ c_total (k_cl k') = c_total (k_cl k) /\
    map snd (c_ldfs (k_cl k')) = map snd (c_ldfs (k_cl k)) /\ c_trisqrd (k_cl k') = c_trisqrd (k_cl k) /\
    map snd (k_devpvar k') = map snd (k_devpvar k) /\ map snd (k_ldfvar k') = map snd (k_ldfvar k) /\
    k_proc k' = k_proc k /\ k_param k' = k_param k /\ k_mse k' = k_mse k /\ k_mse_total k' = k_mse_total k /\
    map s_origin (c_rows (k_cl k')) = m_idx m' /\ map s_maturity (c_rows (k_cl k')) = rev (m_cols m').
Proof. exact mack_labels. Qed.
Print Assumptions C53_mack_cl_ignores_labels.

(** The same triangle under other labels, not evenly spaced. *)
Definition ex_m_years : lmat := mkMat [-7; 0; 1; 10]%Z [0; 1; 3; 4]%Z (m_cells ex_m).
Example C53_nonvacuous : regular ex_m_years 4 ex_C /\ tail_fits (m_cols ex_m_years) /\ m_cols ex_m_years <> m_cols ex_m /\
  match snd (base_cl ex_gm (mkTri ex_m_years "origin" "dev" "value") [3; 2; 1; 0] (a2aind_init ex_m) (SelLabel "simple-2") (vz 1)) with
  | Ok r => map s_maturity (c_rows r) = [4; 3; 1; 0]%Z /\
            match snd (base_cl ex_gm (mkTri ex_m "origin" "dev" "value") [3; 2; 1; 0] (a2aind_init ex_m) (SelLabel "simple-2") (vz 1)) with
            | Ok r0 => map s_maturity (c_rows r0) = [48; 36; 24; 12]%Z
            | Err _ => False
            end
  | Err _ => False
  end.
Proof.
  destruct ex_regular as (A & B & L1 & L2 & H3 & H4).
  split.
  - split; [repeat constructor|]. split; [repeat constructor|]. split; [reflexivity|]. split; [reflexivity|]. split; [exact H3|exact H4].
  - split; [split; [intros j Hj; cbn in Hj; do 2 (destruct j as [|j]; [cbn; lia|]); lia|exists 0; cbn; lia]|].
    split; [discriminate|]. vm_compute. split; reflexivity.
Qed.

(** ** C54.  The youngest origin's single observation influences no factor and no other
    origin. *)
Theorem C54_youngest_origin_base_cl :
  forall (gm : list val -> val) (m m' : lmat) (n : nat) (C C' : nat -> nat -> Qc) (v : string) (cl : list nat) (ind : list (list val))
         (sel : sel_arg) (tail : val) (sel' : sel_arg) (r : cl_result) (f : nat -> Qc),
  regular m n C -> regular m' n C' -> positive n C -> positive n C' -> 2 < n ->
  m_idx m' = m_idx m -> m_cols m' = m_cols m -> same_but_youngest n C C' ->
  tail_fits (m_cols m) -> clvi m = Ok cl -> (forall s, sel <> SelSeries s) ->
  base_cl gm (mkTri m "origin" "dev" v) cl ind sel tail = (sel', Ok r) ->
  c_ldfs r = map (fun j => (nth j (m_cols m) 0%Z, Fin (f j))) (seq 0 n) ->
  a2a_avgs gm m' ind = a2a_avgs gm m ind /\ clvi m' = Ok cl /\
  exists r', base_cl gm (mkTri m' "origin" "dev" v) cl ind sel tail = (sel', Ok r') /\
    c_ldfs r' = c_ldfs r /\ firstn (n - 1) (c_rows r') = firstn (n - 1) (c_rows r) /\
    map s_cldf (c_rows r') = map s_cldf (c_rows r).
Proof. exact base_young. Qed.
Print Assumptions C54_youngest_origin_base_cl.

Theorem C54_youngest_origin_mack_cl :
  forall (m m' : lmat) (n : nat) (C C' : nat -> nat -> Qc) (v : string) (cl : list nat) (ind : list (list val))
         (W : nat -> nat -> Qc) (alpha : nat) (tail : val) (k : mack_result),
  regular m n C -> regular m' n C' -> positive n C -> positive n C' -> 3 < n ->
  m_idx m' = m_idx m -> m_cols m' = m_cols m -> same_but_youngest n C C' ->
  tail_fits (m_cols m) -> clvi m = Ok cl -> weights ind n W ->
  mack_cl (mkTri m "origin" "dev" v) cl ind alpha tail = Ok k ->
  exists k', mack_cl (mkTri m' "origin" "dev" v) cl ind alpha tail = Ok k' /\
    c_ldfs (k_cl k') = c_ldfs (k_cl k) /\ k_devpvar k' = k_devpvar k /\ k_ldfvar k' = k_ldfvar k /\
    firstn (n - 1) (c_rows (k_cl k')) = firstn (n - 1) (c_rows (k_cl k)) /\
    firstn (n - 1) (k_proc k') = firstn (n - 1) (k_proc k) /\
    firstn (n - 1) (k_param k') = firstn (n - 1) (k_param k) /\
    firstn (n - 1) (k_mse k') = firstn (n - 1) (k_mse k).
Proof. exact mack_young. Qed.
Print Assumptions C54_youngest_origin_mack_cl.

Definition ex_young_C (i j : nat) : Qc := if (i =? 3) && (j =? 0) then qz 7777 else ex_C i j.
Definition ex_m_young : lmat := mkMat (m_idx ex_m) (m_cols ex_m)
  [[vz 100; vz 150; vz 180; vz 189]; [vz 110; vz 176; vz 200; NaN];
   [vz 90; vz 120; NaN; NaN]; [vz 7777; NaN; NaN; NaN]].
Example C54_nonvacuous : regular ex_m_young 4 ex_young_C /\ positive 4 ex_young_C /\ same_but_youngest 4 ex_C ex_young_C /\
  match snd (base_cl ex_gm (mkTri ex_m_young "origin" "dev" "value") [3; 2; 1; 0] (a2aind_init ex_m) (SelLabel "all-weighted") (vz 1)) with
  | Ok r => match snd (base_cl ex_gm (mkTri ex_m "origin" "dev" "value") [3; 2; 1; 0] (a2aind_init ex_m) (SelLabel "all-weighted") (vz 1)) with
            | Ok r0 => map s_ultimate (c_rows r) <> map s_ultimate (c_rows r0)
            | Err _ => False
            end
  | Err _ => False
  end.
Proof.
  split; [|split; [|split]].
  - split; [repeat constructor|]. split; [repeat constructor|]. do 3 (split; [reflexivity|]). split.
    + intros row H. repeat (destruct H as [<-|H]; [reflexivity|]). contradiction.
    + intros i j Hi Hj. do 4 (destruct i as [|i]; [do 4 (destruct j as [|j]; [reflexivity|]); lia|]). lia.
  - intros i j H. do 4 (destruct i as [|i]; [do 4 (destruct j as [|j]; [first [reflexivity|lia]|]); lia|]). lia.
  - intros i j H1 H2. unfold ex_young_C. destruct (Nat.eqb_spec i 3); [lia|]. reflexivity.
  - vm_compute. discriminate.
Qed.

(** ** C55.  If every origin develops by the same pattern b, every average and both
    estimators recover the pattern exactly, whatever average, window, exclusions,
    alpha; Mack's errors are 0.  ([mean_like]: the geometric mean lies between the
    smallest and the largest value.) *)
Theorem C55_base_cl_recovers_pattern :
  forall (gm : list val -> val) (m : lmat) (n : nat) (C : nat -> nat -> Qc) (a b : nat -> Qc) (ind : list (list val))
         (w : nat -> nat -> bool) (v : string) (cl : list nat) (s : string) (tail : Qc) (r : cl_result),
  regular m n C -> multiplicative n C a b -> 2 < n -> tail_fits (m_cols m) -> clvi m = Ok cl -> mean_like gm ->
  (forall i j, i + j < n - 1 -> cell ind i j = Fin (if w i j then 1 else 0)%Qc) ->
  (forall j, j < n - 1 -> w (n - 2 - j) j = true) ->
  snd (base_cl gm (mkTri m "origin" "dev" v) cl ind (SelLabel s) (Fin tail)) = Ok r ->
  map s_ultimate (c_rows r) = map (fun i => Fin (a i * b (n - 1)%nat * tail)%Qc) (seq 0 n) /\
  map snd (c_ldfs r) = map (fun j => Fin (if S j <? n then b (S j) / b j else tail)%Qc) (seq 0 n).
Proof. exact base_mult. Qed.
Print Assumptions C55_base_cl_recovers_pattern.

Theorem C55_mack_cl_recovers_pattern :
  forall (m : lmat) (n : nat) (C : nat -> nat -> Qc) (a b : nat -> Qc) (ind : list (list val))
         (W : nat -> nat -> Qc) (alpha : nat) (v : string) (cl : list nat) (tail : val),
  regular m n C -> multiplicative n C a b -> 3 < n -> tail_fits (m_cols m) -> clvi m = Ok cl -> weights ind n W ->
  exists k, mack_cl (mkTri m "origin" "dev" v) cl ind alpha tail = Ok k /\
    map s_ultimate (c_rows (k_cl k)) = map (fun i => Fin (a i * b (n - 1)%nat)%Qc) (seq 0 n) /\
    map snd (c_ldfs (k_cl k)) = map (fun j => Fin (if S j <? n then b (S j) / b j else 1)%Qc) (seq 0 n) /\
    (forall e, In e (k_proc k ++ k_param k ++ k_mse k ++ [k_mse_total k]) -> e = Fin 0%Qc).
Proof. exact mack_mult. Qed.
Print Assumptions C55_mack_cl_recovers_pattern.

Definition ex_a (i : nat) : Qc := qz (nth i [10; 20; 30; 50] 1)%Z.
Definition ex_b (j : nat) : Qc := qz (nth j [2; 3; 4; 5] 1)%Z.
Definition ex_mult_C (i j : nat) : Qc := (ex_a i * ex_b j)%Qc.
Definition ex_m_mult : lmat := mkMat (m_idx ex_m) (m_cols ex_m)
  [[vz 20; vz 30; vz 40; vz 50]; [vz 40; vz 60; vz 80; NaN]; [vz 60; vz 90; NaN; NaN]; [vz 100; NaN; NaN; NaN]].
Lemma ex_gm_mean_like : mean_like ex_gm.
Proof.
  intros l lo hi N H. exists (qsum l / qn (List.length l))%Qc. split; [apply vmean_fin; auto|].
  apply AvgClaims.mean_bounds; auto. intros x Hx. apply H; auto.
Qed.
Example C55_nonvacuous : regular ex_m_mult 4 ex_mult_C /\ multiplicative 4 ex_mult_C ex_a ex_b /\ mean_like ex_gm /\
  match snd (base_cl ex_gm (mkTri ex_m_mult "origin" "dev" "value") [3; 2; 1; 0] ex_ind (SelLabel "medial-2") (vz 1)) with
  | Ok r => forallb (fun p => veqb (fst p) (snd p)) (combine (map s_ultimate (c_rows r)) [vz 50; vz 100; vz 150; vz 250]) = true
  | Err _ => False
  end.
Proof.
  split; [|split; [|split]].
  - split; [repeat constructor|]. split; [repeat constructor|]. do 3 (split; [reflexivity|]). split.
    + intros row H. repeat (destruct H as [<-|H]; [reflexivity|]). contradiction.
    + intros i j Hi Hj. do 4 (destruct i as [|i]; [do 4 (destruct j as [|j]; [vm_compute; reflexivity|]); lia|]). lia.
  - split; [|split].
    + intros i Hi. do 4 (destruct i as [|i]; [reflexivity|]). lia.
    + intros i Hi. do 4 (destruct i as [|i]; [reflexivity|]). lia.
    + reflexivity.
  - apply ex_gm_mean_like.
  - vm_compute. reflexivity.
Qed.

(** ** C56.  If losses never decrease and tail >= 1, no estimate falls short of the
    latest loss, whatever the average. *)
Theorem C56_base_cl_no_shortfall :
  forall (gm : list val -> val) (m : lmat) (n : nat) (C : nat -> nat -> Qc) (ind : list (list val))
         (w : nat -> nat -> bool) (v : string) (cl : list nat) (s : string) (tail : Qc) (r : cl_result) (f : nat -> Qc),
  regular m n C -> positive n C -> 2 < n ->
  (forall i j, i + S j < n -> (C i j <= C i (S j))%Qc) -> (1 <= tail)%Qc ->
  tail_fits (m_cols m) -> clvi m = Ok cl -> mean_like gm ->
  (forall i j, i + j < n - 1 -> cell ind i j = Fin (if w i j then 1 else 0)%Qc) ->
  (forall j, j < n - 1 -> w (n - 2 - j) j = true) ->
  snd (base_cl gm (mkTri m "origin" "dev" v) cl ind (SelLabel s) (Fin tail)) = Ok r ->
  map snd (c_ldfs r) = map (fun j => Fin (f j)) (seq 0 n) ->
  no_shortfall r.
Proof. exact base_no_shortfall. Qed.
Print Assumptions C56_base_cl_no_shortfall.

Theorem C56_mack_cl_no_shortfall :
  forall (m : lmat) (n : nat) (C : nat -> nat -> Qc) (ind : list (list val))
         (W : nat -> nat -> Qc) (alpha : nat) (v : string) (cl : list nat) (tail : val),
  regular m n C -> positive n C -> 3 < n ->
  (forall i j, i + S j < n -> (C i j <= C i (S j))%Qc) ->
  tail_fits (m_cols m) -> clvi m = Ok cl -> weights ind n W ->
  exists k, mack_cl (mkTri m "origin" "dev" v) cl ind alpha tail = Ok k /\ no_shortfall (k_cl k).
Proof. exact mack_no_shortfall. Qed.
Print Assumptions C56_mack_cl_no_shortfall.

Lemma ex_nondecreasing : forall i j, i + S j < 4 -> (ex_C i j <= ex_C i (S j))%Qc.
Proof.
  intros i j H. do 4 (destruct i as [|i]; [do 4 (destruct j as [|j]; [first [vm_compute; discriminate|lia]|]); lia|]). lia.
Qed.
Example C56_nonvacuous : (forall i j, i + S j < 4 -> (ex_C i j <= ex_C i (S j))%Qc) /\
  match snd (base_cl ex_gm (mkTri ex_m "origin" "dev" "value") [3; 2; 1; 0] ex_ind (SelLabel "all-simple") (vz 1)) with
  | Ok r => exists f, map snd (c_ldfs r) = map (fun j => Fin (f j)) (seq 0 4)
  | Err _ => False
  end.
Proof.
  split; [exact ex_nondecreasing|].
  destruct (snd (base_cl ex_gm (mkTri ex_m "origin" "dev" "value") [3; 2; 1; 0] ex_ind (SelLabel "all-simple") (vz 1))) as [r|e] eqn:E;
    [|vm_compute in E; discriminate].
  exists (fun j => num (nth j (map snd (c_ldfs r)) NaN)).
  assert (Q : match snd (base_cl ex_gm (mkTri ex_m "origin" "dev" "value") [3; 2; 1; 0] ex_ind (SelLabel "all-simple") (vz 1)) with
    Ok r => map snd (c_ldfs r) = map (fun j => Fin (num (nth j (map snd (c_ldfs r)) NaN))) (seq 0 4) | Err _ => False end) by (vm_compute; reflexivity).
  rewrite E in Q. exact Q.
Qed.

(** ** C57.  Every entry of a2a_avgs() that is a number lies between the smallest and the
    largest link ratio of its column. *)
Theorem C57_averages_between_link_ratios :
  forall (gm : list val -> val) (m : lmat) (n : nat) (C : nat -> nat -> Qc) (ind : list (list val)) (w : nat -> nat -> bool),
  regular m n C -> positive n C -> 1 < n ->
  (forall i j, i + j < n - 1 -> cell ind i j = Fin (if w i j then 1 else 0)%Qc) ->
  (forall j, j < n - 1 -> w (n - 2 - j) j = true) ->
  forall (avgs : list (string * list val)) (s : string) (vals : list val) (j : nat) (q lo hi : Qc),
  mean_like gm -> a2a_avgs gm m ind = Ok avgs -> In (s, vals) avgs -> j < n - 1 ->
  nth j vals NaN = Fin q -> (forall i, i < n - 1 - j -> (lo <= C i (S j) / C i j <= hi)%Qc) -> (lo <= q <= hi)%Qc.
Proof. exact avgs_between. Qed.
Print Assumptions C57_averages_between_link_ratios.

Example C57_nonvacuous : mean_like ex_gm /\
  match a2a_avgs ex_gm ex_m ex_ind with
  | Ok avgs => exists vals, In ("geometric-2"%string, vals) avgs /\ veqb (nth 0 vals NaN) (vdiv (vz 4) (vz 3)) = true
  | Err _ => False
  end.
Proof.
  split; [apply ex_gm_mean_like|]. vm_compute. eexists. split; [|shelve]. right. right. right. right. left. reflexivity.
  Unshelve. reflexivity.
Qed.

(** ** C58.  Larger factors never give smaller estimates: any two base_cl results on a
    triangle, however their factors were selected. *)
Theorem C58_monotone_in_factors :
  forall (gm : list val -> val) (m : lmat) (n : nat) (C : nat -> nat -> Qc) (ind ind' : list (list val)) (v : string) (cl : list nat)
         (sel sel' : sel_arg) (tail tail' : val) (t1 t2 : sel_arg) (r r' : cl_result) (f f' : nat -> Qc),
  regular m n C -> positive n C -> 0 < n -> clvi m = Ok cl ->
  base_cl gm (mkTri m "origin" "dev" v) cl ind sel tail = (t1, Ok r) ->
  base_cl gm (mkTri m "origin" "dev" v) cl ind' sel' tail' = (t2, Ok r') ->
  c_ldfs r = map (fun j => (nth j (m_cols m) 0%Z, Fin (f j))) (seq 0 n) ->
  c_ldfs r' = map (fun j => (nth j (m_cols m) 0%Z, Fin (f' j))) (seq 0 n) ->
  (forall j, j < n -> (0 <= f j /\ f j <= f' j)%Qc) ->
  (exists us us', map s_ultimate (c_rows r) = map Fin us /\ map s_ultimate (c_rows r') = map Fin us' /\ Forall2 Qcle us us') /\
  (exists rs rs', map s_reserve (c_rows r) = map Fin rs /\ map s_reserve (c_rows r') = map Fin rs' /\ Forall2 Qcle rs rs') /\
  (exists u u' s s', snd (fst (c_total r)) = Fin u /\ snd (fst (c_total r')) = Fin u' /\ (u <= u')%Qc /\
     snd (c_total r) = Fin s /\ snd (c_total r') = Fin s' /\ (s <= s')%Qc).
Proof. exact base_monotone. Qed.
Print Assumptions C58_monotone_in_factors.

Example C58_nonvacuous :
  match snd (base_cl ex_gm (mkTri ex_m "origin" "dev" "value") [3; 2; 1; 0] (a2aind_init ex_m) (SelSeq [vz 2; vz 1; vz 1]) (vz 1)),
        snd (base_cl ex_gm (mkTri ex_m "origin" "dev" "value") [3; 2; 1; 0] (a2aind_init ex_m) (SelSeq [vz 2; vz 3; vz 1]) (vz 2)) with
  | Ok r, Ok r' => c_ldfs r = map (fun j => (nth j (m_cols ex_m) 0%Z, Fin (qz (nth j [2; 1; 1; 1] 0)%Z))) (seq 0 4) /\
                   c_ldfs r' = map (fun j => (nth j (m_cols ex_m) 0%Z, Fin (qz (nth j [2; 3; 1; 2] 0)%Z))) (seq 0 4) /\
                   map s_ultimate (c_rows r) = [vz 189; vz 200; vz 120; vz 260] /\
                   map s_ultimate (c_rows r') = [vz 378; vz 400; vz 720; vz 1560]
  | _, _ => False
  end.
Proof. vm_compute. repeat split; reflexivity. Qed.

(** ** C20, for the rows of a2a_avgs(). *)
Theorem C20_medial_rows :
  forall (gm : list val -> val) (m : lmat) (n : nat) (C : nat -> nat -> Qc) (ind : list (list val)) (w : nat -> nat -> bool),
  regular m n C -> positive n C -> 1 < n ->
  (forall i j, i + j < n - 1 -> cell ind i j = Fin (if w i j then 1 else 0)%Qc) ->
  (forall j, j < n - 1 -> w (n - 2 - j) j = true) ->
  exists avgs, a2a_avgs gm m ind = Ok avgs /\
   forall j, j < n - 1 ->
    let links rows := map (fun i => (C i (S j) / C i j)%Qc) (filter (fun i => w i j) rows) in
    (exists v, entry avgs "all-medial" j = Some v /\ medial_of (links (seq 0 (n - 1 - j))) v) /\
    forall k, 1 <= k < n - 1 ->
      exists v, entry avgs ("medial-" ++ str_nat k) j = Some v /\ medial_of (links (latest_rows k (n - 1 - j))) v.
Proof. exact medial_rows. Qed.
Print Assumptions C20_medial_rows.
