(** Bootstrap chain ladder: C38 - C43.

    [rng] stands for the random numbers: from the sampling distribution it yields the
    residual drawn for each record of the table of simulations and the gamma variate
    for each record given all (shape, scale) pairs.  [rt] is the square root used for
    residuals.  [ind] are the link ratio indicators: 0 or 1, the latest of each
    column 1 (otherwise the averages raise). *)

From Coq Require Import String QArith Qcanon ZArith List Bool Lia Permutation Sorting.Sorted.
From Verif Require Import Val Frame Triangle A2A Base Mack Boot QcLib Spec Spec2 ExTri BootFit BootClaims BootNoise BootClaims2 BootIndep BootIndepClaims.
Import ListNotations.
Open Scope string_scope.
Open Scope list_scope.
Open Scope nat_scope.

(** ** A concrete triangle with development periods 1, 2, 3, 4. *)
Definition bt_m : lmat := mkMat (m_idx ex_m) [1; 2; 3; 4]%Z (m_cells ex_m).
Lemma bt_regular : regular bt_m 4 ex_C.
Proof.
  repeat split; simpl; auto.
  - repeat constructor.
  - repeat constructor.
  - intros row H. repeat (destruct H as [<-|H]; [reflexivity|]). contradiction.
  - intros i j Hi Hj. do 4 (destruct i as [|i]; [do 4 (destruct j as [|j]; [reflexivity|]); lia|]). lia.
Qed.
Lemma bt_spaced : tail_fits (m_cols bt_m).
Proof. split; [intros j Hj; cbn in Hj; do 2 (destruct j as [|j]; [cbn; lia|]); lia|exists 0; cbn; lia]. Qed.
Lemma bt_lvi : clvi bt_m = Ok [3; 2; 1; 0] /\ rlvi bt_m = Ok [3; 2; 1; 0].
Proof. split; vm_compute; reflexivity. Qed.
Lemma bt_factors j : j < 4 - 1 -> (1 <= vol_factor 4 ex_C j)%Qc.
Proof. intro H. do 3 (destruct j as [|j]; [vm_compute; discriminate|]). lia. Qed.
(** One Newton step from 1: a crude root, with the properties used. *)
Definition ex_rt (v : val) : val :=
  match v with
  | Fin q => if qcltb q 0 then NaN else if qceqb q 0 then Fin 0%Qc else Fin ((1 + q) / qz 2)%Qc
  | PInf => PInf
  | _ => NaN
  end.
Lemma ex_rt_ok : root_like ex_rt.
Proof.
  split; [reflexivity|]. split; [vm_compute; reflexivity|]. split.
  - intros q Q. exists ((1 + q) / qz 2)%Qc. split.
    + apply qc_div_pos; [|reflexivity]. apply Qclt_trans with 1%Qc; [reflexivity|]. 
      rewrite <- (Qcplus_0_r 1) at 1. apply Qclt_minus_iff. replace (1 + q + - (1 + 0))%Qc with q by ring. auto.
    + simpl. destruct (qcltb_spec q 0) as [A|A]; [exfalso; apply (Qclt_not_le _ _ A); apply Qclt_le_weak; auto|].
      destruct (qceqb_spec q 0) as [B|B]; auto. subst. discriminate Q.
  - intros q Q. simpl. destruct (qcltb_spec q 0) as [A|A]; auto. contradiction.
Qed.
(** Draws cycling through the sampling distribution; gamma variates 3/4 or 5/4 of
    their means. *)
Definition ex_rng (l : list val) : (nat -> val) * (list (val * val) -> nat -> val) :=
  (fun k => nth (k mod List.length l) l NaN,
   fun ps k => let p := nth k ps (NaN, NaN) in
     vmul (Fin (if Nat.even k then Q2Qc (3 # 4) else Q2Qc (5 # 4))) (vmul (fst p) (snd p))).
(** No noise. *)
Definition mean_rng (l : list val) : (nat -> val) * (list (val * val) -> nat -> val) :=
  (fun _ => Fin 0%Qc, fun ps k => vmul (fst (nth k ps (NaN, NaN))) (snd (nth k ps (NaN, NaN)))).
Definition bt : tri := mkTri bt_m "origin" "dev" "value".
Definition ex_boot (sims : nat) := boot_cl ex_gm ex_rt bt [3; 2; 1; 0] [3; 2; 1; 0] ex_ind sims false ex_rng.
Definition mean_boot (sims : nat) := boot_cl ex_gm ex_rt bt [3; 2; 1; 0] [3; 2; 1; 0] ex_ind sims false mean_rng.

(** ** C38 *)
Theorem C38_fitted_triangles :
  forall (gm : list val -> val) (rt : val -> val) (m : lmat) (n : nat) (C : nat -> nat -> Qc) (cl rl : list nat)
         (ind : list (list val)) (w : nat -> nat -> bool) (sims : nat) (par : bool)
         (rng : list val -> (nat -> val) * (list (val * val) -> nat -> val)) (b : boot_result),
  regular m n C -> positive n C -> 2 < n -> tail_fits (m_cols m) ->
  (forall i j, i + j < n - 1 -> cell ind i j = Fin (if w i j then 1 else 0)%Qc) ->
  (forall j, j < n - 1 -> w (n - 2 - j) j = true) ->
  boot_cl gm rt (mkTri m "origin" "dev" "value") cl rl ind sims par rng = Ok b ->
  exists D,
    (* fitted cumulative values D, fitted increments its differences, same labels *)
    regular (o_fit_cum b) n D /\ m_idx (o_fit_cum b) = m_idx m /\ m_cols (o_fit_cum b) = m_cols m /\
    regular (o_fit_incr b) n (incr_of D) /\ m_idx (o_fit_incr b) = m_idx m /\ m_cols (o_fit_incr b) = m_cols m /\
    (* the latest diagonal is kept, adjacent values are in the ratio of the factor *)
    (forall i, i < n -> D i (n - 1 - i) = C i (n - 1 - i)) /\
    (forall i j, i + S j < n -> D i (S j) = (D i j * vol_factor n C j)%Qc) /\
    (forall i j, i + j < n -> (0 < D i j)%Qc) /\
    (* fitted and actual increments have the same total per origin and per period *)
    (forall i, i < n -> sumf 0 (n - i) (fun j => incr_of D i j) = sumf 0 (n - i) (fun j => incr_of C i j)) /\
    (forall j, j < n -> sumf 0 (n - j) (fun i => incr_of D i j) = sumf 0 (n - j) (fun i => incr_of C i j)).
Proof.
  intros gm rt m n C cl rl ind w sims par rng b R P Hn Ev Hi Hl B.
  exact (c38 m n C R P Hn Ev ind w Hi Hl gm rt cl rl sims par rng b B).
Qed.
Print Assumptions C38_fitted_triangles.

Example C38_nonvacuous : regular bt_m 4 ex_C /\ positive 4 ex_C /\ tail_fits (m_cols bt_m) /\
  (forall i j, i + j < 4 - 1 -> cell ex_ind i j = Fin (if ex_w i j then 1 else 0)%Qc) /\
  (forall j, j < 4 - 1 -> ex_w (4 - 2 - j) j = true) /\
  match ex_boot 2 with
  | Ok b => cell (m_cells (o_fit_cum b)) 3 0 = vz 130 /\ cell (m_cells (o_fit_cum b)) 2 1 = vz 120 /\
            cell (m_cells (o_fit_cum b)) 2 0 = Fin (Q2Qc (18000 # 223)) /\
            cell (m_cells (o_fit_incr b)) 2 1 = Fin (Q2Qc (8760 # 223))
  | Err _ => False
  end.
Proof.
  split; [apply bt_regular|]. split; [apply ex_positive|]. split; [apply bt_spaced|]. split; [apply ex_ind_ok|].
  split; [apply ex_w_latest|]. vm_compute. repeat split; apply f_equal; apply Qc_is_canon; reflexivity.
Qed.

(** boot_cl only works when the value column is called "value". *)
Theorem C38_value_column_refuted :
  boot_cl ex_gm ex_rt (mkTri bt_m "origin" "dev" "paid") [3; 2; 1; 0] [3; 2; 1; 0] ex_ind 2 false ex_rng = Err KeyError.
Proof. vm_compute. reflexivity. Qed.
Print Assumptions C38_value_column_refuted.

(** ** C39.  The degrees of freedom exceed cells - (origins + periods - 1) by twice
    the number of origins, on every run-off triangle. *)
Theorem C39_dof_partial :
  forall (gm : list val -> val) (rt : val -> val) (m : lmat) (n : nat) (C : nat -> nat -> Qc) (cl rl : list nat)
         (ind : list (list val)) (w : nat -> nat -> bool) (sims : nat) (par : bool)
         (rng : list val -> (nat -> val) * (list (val * val) -> nat -> val)) (b : boot_result),
  regular m n C -> positive n C -> 2 < n -> tail_fits (m_cols m) ->
  (forall i j, i + j < n - 1 -> cell ind i j = Fin (if w i j then 1 else 0)%Qc) ->
  (forall j, j < n - 1 -> w (n - 2 - j) j = true) ->
  boot_cl gm rt (mkTri m "origin" "dev" "value") cl rl ind sims par rng = Ok b ->
  o_dof b = (Z.of_nat (n * (n + 1) / 2) - (Z.of_nat n + Z.of_nat n - 1) + 2 * Z.of_nat n)%Z.
Proof.
  intros gm rt m n C cl rl ind w sims par rng b R P Hn Ev Hi Hl B.
  exact (c39 m n C R P Hn Ev ind w Hi Hl gm rt cl rl sims par rng b B).
Qed.
Print Assumptions C39_dof_partial.

Theorem C39_dof_refuted : exists b, ex_boot 2 = Ok b /\
  o_dof b = 11%Z /\ o_dof b <> (10 - (4 + 4 - 1))%Z /\
  List.length (filter (fun v => negb (isnan v)) (List.concat (m_cells bt_m))) = 10.
Proof. eexists. split; [vm_compute; reflexivity|]. split; [vm_compute; reflexivity|]. split; [vm_compute; discriminate|reflexivity]. Qed.
Print Assumptions C39_dof_refuted.

(** ** C40.  Residuals, their adjustment, and the sampling distribution. *)
Theorem C40_sampling_distribution :
  forall (gm : list val -> val) (rt : val -> val) (m : lmat) (n : nat) (C : nat -> nat -> Qc) (cl rl : list nat)
         (ind : list (list val)) (w : nat -> nat -> bool) (sims : nat) (par : bool)
         (rng : list val -> (nat -> val) * (list (val * val) -> nat -> val)) (b : boot_result),
  regular m n C -> positive n C -> 2 < n -> tail_fits (m_cols m) ->
  (forall i j, i + j < n - 1 -> cell ind i j = Fin (if w i j then 1 else 0)%Qc) ->
  (forall j, j < n - 1 -> w (n - 2 - j) j = true) ->
  root_like rt ->
  boot_cl gm rt (mkTri m "origin" "dev" "value") cl rl ind sims par rng = Ok b ->
  (* exactly the adjusted residuals that are neither missing nor zero *)
  o_dist b = filter (fun v => negb (isnan v) && negb (veqb v (Fin 0%Qc))) (List.concat (m_cells (o_resid_adj b))) /\
  (* which are the Pearson residuals times one constant *)
  exists D, regular (o_fit_incr b) n D /\
    m_idx (o_resid_us b) = m_idx m /\ m_cols (o_resid_us b) = m_cols m /\
    forall i j, i < n -> j < n ->
      cell (m_cells (o_resid_us b)) i j
        = (if i + j <? n then vdiv (Fin (incr_of C i j - D i j)%Qc) (rt (Fin (abs_ (D i j)))) else NaN) /\
      cell (m_cells (o_resid_adj b)) i j
        = vmul (rt (vdiv (vz (Z.of_nat (n * (n + 1) / 2))) (vz (o_dof b)))) (cell (m_cells (o_resid_us b)) i j).
Proof.
  intros gm rt m n C cl rl ind w sims par rng b R P Hn Ev Hi Hl Rt B.
  exact (conj (c40 m n C R P Hn Ev ind w Hi Hl gm rt Rt cl rl sims par rng b B)
              (c40_resid m n C R P Hn Ev ind w Hi Hl gm rt cl rl sims par rng b B)).
Qed.
Print Assumptions C40_sampling_distribution.

(** The scale parameter is the sum of the squared Pearson residuals [X] of the observed
    cells (an undefined residual, 0/0, counts as 0) over the degrees of freedom. *)
Theorem C40_scale_parameter :
  forall (gm : list val -> val) (rt : val -> val) (m : lmat) (n : nat) (C : nat -> nat -> Qc) (cl rl : list nat)
         (ind : list (list val)) (w : nat -> nat -> bool) (sims : nat) (par : bool)
         (rng : list val -> (nat -> val) * (list (val * val) -> nat -> val)) (b : boot_result) (X : nat -> nat -> Qc),
  regular m n C -> positive n C -> 2 < n -> tail_fits (m_cols m) ->
  (forall i j, i + j < n - 1 -> cell ind i j = Fin (if w i j then 1 else 0)%Qc) ->
  (forall j, j < n - 1 -> w (n - 2 - j) j = true) ->
  boot_cl gm rt (mkTri m "origin" "dev" "value") cl rl ind sims par rng = Ok b ->
  (forall i j, i + j < n -> cell (m_cells (o_resid_us b)) i j = Fin (X i j) \/
                            (cell (m_cells (o_resid_us b)) i j = NaN /\ X i j = 0%Qc)) ->
  o_scale b = Fin (sumf 0 n (fun j => sumf 0 (n - j) (fun i => (X i j * X i j)%Qc)) / qz (o_dof b))%Qc.
Proof.
  intros gm rt m n C cl rl ind w sims par rng b X R P Hn Ev Hi Hl B.
  exact (c40_scale m n C R P Hn Ev ind w Hi Hl gm rt cl rl sims par rng b X B).
Qed.
Print Assumptions C40_scale_parameter.

Example C40_nonvacuous : root_like ex_rt /\
  match ex_boot 2 with
  | Ok b => List.length (o_dist b) = 8 /\ List.length (List.concat (m_cells (o_resid_adj b))) = 16 /\
            cell (m_cells (o_resid_us b)) 0 3 = Fin 0%Qc /\
            existsb (vsame (cell (m_cells (o_resid_adj b)) 1 1)) (o_dist b) = true /\
            forallb (fun p => match cell (m_cells (o_resid_us b)) (fst p) (snd p) with Fin _ => true | _ => false end)
              [(0, 0); (0, 1); (0, 2); (0, 3); (1, 0); (1, 1); (1, 2); (2, 0); (2, 1); (3, 0)] = true
  | Err _ => False
  end.
Proof.
  split; [apply ex_rt_ok|]. vm_compute. repeat split; apply f_equal; apply Qc_is_canon; reflexivity.
Qed.

(** ** C41.  Without noise every simulation is the chain ladder: the records, the
    summary and the totals are those of base_cl.  Missing from the full property:
    development periods must start at label 1, and factors must be at least 1. *)
Theorem C41_noise_free_partial :
  forall (gm : list val -> val) (rt : val -> val) (m : lmat) (n : nat) (C : nat -> nat -> Qc) (cl rl : list nat)
         (ind : list (list val)) (w : nat -> nat -> bool) (sims : nat) (par : bool)
         (rng : list val -> (nat -> val) * (list (val * val) -> nat -> val)) (b : boot_result) (c : Qc),
  regular m n C -> positive n C -> 2 < n -> tail_fits (m_cols m) ->
  (forall i j, i + j < n - 1 -> cell ind i j = Fin (if w i j then 1 else 0)%Qc) ->
  (forall j, j < n - 1 -> w (n - 2 - j) j = true) ->
  clvi m = Ok cl -> rlvi m = Ok rl -> root_like rt ->
  (forall j, j < n - 1 -> (1 <= vol_factor n C j)%Qc) ->
  nth 0 (m_cols m) 0%Z = 1%Z ->
  (forall l k, fst (rng l) k = Fin 0%Qc) ->
  (forall l ps k, snd (rng l) ps k = vmul (fst (nth k ps (NaN, NaN))) (snd (nth k ps (NaN, NaN)))) ->
  let t := mkTri m "origin" "dev" "value" in
  boot_cl gm rt t cl rl ind sims par rng = Ok b -> o_scale b = Fin c -> (0 < c)%Qc ->
  exists r, base_cl gm t cl ind (SelLabel "all-weighted") (Fin 1%Qc) = (SelLabel "all-weighted", Ok r) /\
    o_ldfs b = c_ldfs r /\
    o_reserves b = flat_map (fun row => map (fun s =>
        mkR s (s_origin row) (s_latest row) (s_ultimate row) (s_reserve row)) (seq 0 sims)) (c_rows r) /\
    (0 < sims ->
       o_summary b = map (fun row => (s_origin row, s_latest row, s_ultimate row, s_reserve row)) (c_rows r) /\
       o_total b = c_total r).
Proof.
  intros gm rt m n C cl rl ind w sims par rng b c R P Hn Ev Hi Hl Cl Rl Rt F1 D1 R0 Gm t B Sc Cp.
  exact (c41 m n C R P Hn Ev ind w Hi Hl gm rt cl rl Cl Rl Rt F1 sims par rng b c D1 R0 Gm B Sc Cp).
Qed.
Print Assumptions C41_noise_free_partial.

(** The factors of every simulation. *)
Theorem C41_simulated_factors_partial :
  forall (n : nat) (C : nat -> nat -> Qc) (rt : val -> val) (sims : nat) (m fit : lmat) (cl : list nat),
  0 < n -> regular m n C -> positive n C -> clvi m = Ok cl -> root_like rt ->
  (forall j, j < n - 1 -> (1 <= vol_factor n C j)%Qc) ->
  regular fit n (incr_of (fun i j => C i (n - 1 - i)%nat / prodf j (n - 1 - i - j) (vol_factor n C))%Qc) ->
  m_idx fit = m_idx m -> m_cols fit = m_cols m ->
  bs_ldfs m cl sims (samples rt m fit sims (fun _ => Fin 0%Qc))
  = flat_map (fun s => map (fun j => (s, nth j (m_cols m) 0%Z, Fin (vol_factor n C j))) (seq 0 (n - 1))) (seq 0 sims).
Proof. exact c41_factors. Qed.
Print Assumptions C41_simulated_factors_partial.

Example C41_nonvacuous : regular bt_m 4 ex_C /\ clvi bt_m = Ok [3; 2; 1; 0] /\ rlvi bt_m = Ok [3; 2; 1; 0] /\ root_like ex_rt /\
  (forall j, j < 4 - 1 -> (1 <= vol_factor 4 ex_C j)%Qc) /\
  match mean_boot 2 with
  | Ok b => match o_scale b with Fin c => qcltb 0 c = true | _ => False end /\
            map (fun r => (v_sim r, v_o r)) (o_reserves b)
              = [(0, 2001%Z); (1, 2001%Z); (0, 2002%Z); (1, 2002%Z); (0, 2003%Z); (1, 2003%Z); (0, 2004%Z); (1, 2004%Z)] /\
            nth 2 (map v_ultimate (o_reserves b)) NaN = vz 210
  | Err _ => False
  end.
Proof.
  split; [apply bt_regular|]. split; [apply bt_lvi|]. split; [apply bt_lvi|]. split; [apply ex_rt_ok|].
  split; [apply bt_factors|]. vm_compute. repeat split; apply f_equal; apply Qc_is_canon; reflexivity.
Qed.

(** First development period labelled 12: every simulated ultimate of an origin with
    forecasts misses the origin's first increment, and the reserve with it. *)
Theorem C41_first_period_label_refuted : exists b r,
  boot_cl ex_gm ex_rt (mkTri ex_m "origin" "dev" "value") [3; 2; 1; 0] [3; 2; 1; 0] (a2aind_init ex_m) 1 false mean_rng = Ok b /\
  snd (base_cl ex_gm (mkTri ex_m "origin" "dev" "value") [3; 2; 1; 0] (a2aind_init ex_m) (SelLabel "all-weighted") (Fin 1%Qc)) = Ok r /\
  vlistb (map s_ultimate (c_rows r)) (map v_ultimate (o_reserves b)) = false /\
  forallb (fun p => vltb (snd p) (fst p)) (combine (map s_ultimate (c_rows r)) (map v_ultimate (o_reserves b))) = true.
Proof. eexists _, _. split; [vm_compute; reflexivity|]. split; [vm_compute; reflexivity|]. split; vm_compute; reflexivity. Qed.
Print Assumptions C41_first_period_label_refuted.

(** A factor below 1: the fitted increment is negative, its square root missing, and
    the simulated latest value and forecasts with it. *)
Definition dn_C (i j : nat) : Qc := qz (nth j (nth i [[100; 150; 140]; [110; 176; 0]; [90; 0; 0]]%Z []) 0%Z).
Definition dn_m : lmat := mkMat [2001; 2002; 2003]%Z [1; 2; 3]%Z
  [[vz 100; vz 150; vz 140]; [vz 110; vz 176; NaN]; [vz 90; NaN; NaN]].
Lemma dn_regular : regular dn_m 3 dn_C.
Proof.
  repeat split; simpl; auto.
  - repeat constructor.
  - repeat constructor.
  - intros row H. repeat (destruct H as [<-|H]; [reflexivity|]). contradiction.
  - intros i j Hi Hj. do 3 (destruct i as [|i]; [do 3 (destruct j as [|j]; [reflexivity|]); lia|]). lia.
Qed.
Lemma dn_positive : positive 3 dn_C.
Proof.
  intros i j H. do 3 (destruct i as [|i]; [do 3 (destruct j as [|j]; [first [reflexivity|lia]|]); lia|]). lia.
Qed.
Definition dn : tri := mkTri dn_m "origin" "dev" "value".
Theorem C41_decreasing_refuted : exists b r,
  boot_cl ex_gm ex_rt dn [2; 1; 0] [2; 1; 0] (a2aind_init dn_m) 2 false mean_rng = Ok b /\
  snd (base_cl ex_gm dn [2; 1; 0] (a2aind_init dn_m) (SelLabel "all-weighted") (Fin 1%Qc)) = Ok r /\
  vlistb (map s_ultimate (c_rows r)) [vz 140; Fin (Q2Qc (2464 # 15)); Fin (Q2Qc (652 # 5))] = true /\
  nth 0 (map v_ultimate (o_reserves b)) NaN = NaN.
Proof. eexists _, _. split; [vm_compute; reflexivity|]. split; [vm_compute; reflexivity|]. split; vm_compute; reflexivity. Qed.
Print Assumptions C41_decreasing_refuted.

(** A triangle that fits exactly has no nonzero residual, and boot_cl raises. *)
Definition exact_m : lmat := mkMat [2001; 2002; 2003]%Z [1; 2; 3]%Z
  [[vz 100; vz 200; vz 300]; [vz 200; vz 400; NaN]; [vz 150; NaN; NaN]].
Theorem C41_exact_fit_refuted :
  boot_cl ex_gm ex_rt (mkTri exact_m "origin" "dev" "value") [2; 1; 0] [2; 1; 0] (a2aind_init exact_m) 2 false mean_rng = Err ValueError.
Proof. vm_compute. reflexivity. Qed.
Print Assumptions C41_exact_fit_refuted.

(** ** C42.  Simulation s depends on its own draws only: two calls, even with a
    different number of simulations, whose residual draws and gamma variates agree on
    the records of simulation s have the same records for it.  ([G]: each gamma
    variate depends on its own parameters and position.)  Missing from the full
    property, which is refuted below: at the last period only the oldest origin is
    observed, and its fitted increment there is not negative. *)
Theorem C42_independent_partial :
  forall (gm : list val -> val) (rt : val -> val) (m : lmat) (v : string) (cl rl : list nat)
         (ind : list (list val)) (sims sims' : nat) (par par' : bool)
         (rng rng' : list val -> (nat -> val) * (list (val * val) -> nat -> val)) (b b' : boot_result) (s : nat)
         (G G' : nat -> val * val -> val),
  let nr := List.length (m_idx m) in let nc := List.length (m_cols m) in
  increasing (m_idx m) -> increasing (m_cols m) -> m_idx m <> [] -> m_cols m <> [] ->
  (forall i, 0 < i < nr -> cell (m_cells m) i (nc - 1) = NaN) ->
  clvi m = Ok cl -> root_like rt ->
  boot_cl gm rt (mkTri m "origin" "dev" v) cl rl ind sims par rng = Ok b ->
  boot_cl gm rt (mkTri m "origin" "dev" v) cl rl ind sims' par' rng' = Ok b' ->
  (forall j, j < nc -> cell (m_cells (o_fit_incr b)) 0 j = NaN \/ exists q, cell (m_cells (o_fit_incr b)) 0 j = Fin q) ->
  (exists q, cell (m_cells (o_fit_incr b)) 0 (nc - 1) = Fin q /\ (0 <= q)%Qc) ->
  (forall k, k < sims * (nr * nc) -> exists q, fst (rng (o_dist b)) k = Fin q) ->
  (forall k, k < sims' * (nr * nc) -> exists q, fst (rng' (o_dist b')) k = Fin q) ->
  (forall ps k, snd (rng (o_dist b)) ps k = G k (nth k ps (NaN, NaN))) ->
  (forall ps k, snd (rng' (o_dist b')) ps k = G' k (nth k ps (NaN, NaN))) ->
  s < sims -> s < sims' ->
  (forall k, s * (nr * nc) <= k < S s * (nr * nc) ->
     fst (rng (o_dist b)) k = fst (rng' (o_dist b')) k /\ forall p, G k p = G' k p) ->
  filter (fun r => v_sim r =? s) (o_reserves b) = filter (fun r => v_sim r =? s) (o_reserves b').
Proof. exact c42_any. Qed.
Print Assumptions C42_independent_partial.

(** Run-off triangles: all that is needed is a last factor of at least 1. *)
Theorem C42_runoff_partial :
  forall (gm : list val -> val) (rt : val -> val) (m : lmat) (n : nat) (C : nat -> nat -> Qc) (cl rl : list nat)
         (ind : list (list val)) (w : nat -> nat -> bool) (sims sims' : nat) (par par' : bool)
         (rng rng' : list val -> (nat -> val) * (list (val * val) -> nat -> val)) (b b' : boot_result) (s : nat)
         (G G' : nat -> val * val -> val),
  regular m n C -> positive n C -> 2 < n -> tail_fits (m_cols m) ->
  (forall i j, i + j < n - 1 -> cell ind i j = Fin (if w i j then 1 else 0)%Qc) ->
  (forall j, j < n - 1 -> w (n - 2 - j) j = true) ->
  clvi m = Ok cl -> root_like rt ->
  (1 <= vol_factor n C (n - 2))%Qc ->
  boot_cl gm rt (mkTri m "origin" "dev" "value") cl rl ind sims par rng = Ok b ->
  boot_cl gm rt (mkTri m "origin" "dev" "value") cl rl ind sims' par' rng' = Ok b' ->
  (forall k, k < sims * (n * n) -> exists q, fst (rng (o_dist b)) k = Fin q) ->
  (forall k, k < sims' * (n * n) -> exists q, fst (rng' (o_dist b')) k = Fin q) ->
  (forall ps k, snd (rng (o_dist b)) ps k = G k (nth k ps (NaN, NaN))) ->
  (forall ps k, snd (rng' (o_dist b')) ps k = G' k (nth k ps (NaN, NaN))) ->
  s < sims -> s < sims' ->
  (forall k, s * (n * n) <= k < S s * (n * n) ->
     fst (rng (o_dist b)) k = fst (rng' (o_dist b')) k /\ forall p, G k p = G' k p) ->
  filter (fun r => v_sim r =? s) (o_reserves b) = filter (fun r => v_sim r =? s) (o_reserves b').
Proof.
  intros gm rt m n C cl rl ind w sims sims' par par' rng rng' b b' s G G' R P Hn Ev Hi Hl Cl Rt F1.
  exact (c42 m n C R P Hn Ev ind w Hi Hl gm rt cl rl Cl Rt F1 sims sims' par par' rng rng' b b' s G G').
Qed.
Print Assumptions C42_runoff_partial.

(** An integer random state determines everything, whatever the operating system
    would have seeded.  (Both stages start from the same seed: the gamma variates come
    from the stream the residuals came from.)  A random state that is neither an
    integer, nor a RandomState, nor None raises. *)
Theorem C42_seed_determines :
  forall (P : Type) (seed : Z -> P) (resample : P -> list val -> nat -> (nat -> val) * P)
         (gamma : P -> list (val * val) -> nat -> val) (z : Z) (size : nat) (e1 e2 e1' e2' : P),
  boot_rng seed e1 e2 resample gamma (RsInt z) size = boot_rng seed e1' e2' resample gamma (RsInt z) size /\
  exists rng, boot_rng seed e1 e2 resample gamma (RsInt z) size = Ok rng /\
    forall l, fst (rng l) = fst (resample (seed z) l size) /\ snd (rng l) = gamma (seed z).
Proof. intros. split; [reflexivity|]. eexists. split; [reflexivity|]. auto. Qed.
Print Assumptions C42_seed_determines.

(** Draws: the first of the distribution for every record of simulation 1, the k-th
    draw of simulation 0 chosen by [z]. *)
Definition leak_rng (z : Qc) (l : list val) : (nat -> val) * (list (val * val) -> nat -> val) :=
  (fun k => if k <? 16 then Fin z else Fin 0%Qc, snd (mean_rng l)).
Example C42_nonvacuous : regular bt_m 4 ex_C /\ (forall j, j < 4 - 1 -> (1 <= vol_factor 4 ex_C j)%Qc) /\
  match boot_cl ex_gm ex_rt bt [3; 2; 1; 0] [3; 2; 1; 0] ex_ind 2 false (leak_rng 0),
        boot_cl ex_gm ex_rt bt [3; 2; 1; 0] [3; 2; 1; 0] ex_ind 3 false (leak_rng 1) with
  | Ok b, Ok b' =>
      vlistb (map v_ultimate (filter (fun r => v_sim r =? 1) (o_reserves b)))
             (map v_ultimate (filter (fun r => v_sim r =? 1) (o_reserves b'))) = true /\
      vlistb (map v_ultimate (filter (fun r => v_sim r =? 0) (o_reserves b)))
             (map v_ultimate (filter (fun r => v_sim r =? 0) (o_reserves b'))) = false
  | _, _ => False
  end.
Proof. split; [apply bt_regular|]. split; [apply bt_factors|]. vm_compute. split; reflexivity. Qed.

(** A middle factor below 1 does no harm. *)
Definition mid_C (i j : nat) : Qc := qz (nth j (nth i [[100; 90; 99]; [100; 80]; [100]]%Z []) 0%Z).
Definition mid_m : lmat := mkMat [2001; 2002; 2003]%Z [1; 2; 3]%Z
  [[Fin (mid_C 0 0); Fin (mid_C 0 1); Fin (mid_C 0 2)]; [Fin (mid_C 1 0); Fin (mid_C 1 1); NaN]; [Fin (mid_C 2 0); NaN; NaN]].
Definition mid_rng (z : Qc) (l : list val) : (nat -> val) * (list (val * val) -> nat -> val) :=
  (fun k => if k <? 9 then Fin z else Fin 0%Qc, snd (mean_rng l)).
Example C42_runoff_nonvacuous : regular mid_m 3 mid_C /\ (vol_factor 3 mid_C 0 < 1)%Qc /\ (1 <= vol_factor 3 mid_C 1)%Qc /\
  clvi mid_m = Ok [2; 1; 0] /\
  match boot_cl ex_gm ex_rt (mkTri mid_m "origin" "dev" "value") [2; 1; 0] [2; 1; 0] (a2aind_init mid_m) 2 false (mid_rng 0),
        boot_cl ex_gm ex_rt (mkTri mid_m "origin" "dev" "value") [2; 1; 0] [2; 1; 0] (a2aind_init mid_m) 2 false (mid_rng 1) with
  | Ok b, Ok b' =>
      vlistb (map v_ultimate (filter (fun r => v_sim r =? 1) (o_reserves b)))
             (map v_ultimate (filter (fun r => v_sim r =? 1) (o_reserves b'))) = true /\
      vlistb (map v_ultimate (filter (fun r => v_sim r =? 0) (o_reserves b)))
             (map v_ultimate (filter (fun r => v_sim r =? 0) (o_reserves b'))) = false
  | _, _ => False
  end.
Proof.
  split.
  { repeat split; simpl; auto.
    - repeat constructor.
    - repeat constructor.
    - intros row H. repeat (destruct H as [<-|H]; [reflexivity|]). contradiction.
    - intros i j Hi Hj. do 3 (destruct i as [|i]; [do 3 (destruct j as [|j]; [reflexivity|]); lia|]). lia. }
  split; [vm_compute; reflexivity|]. split; [vm_compute; discriminate|]. split; [vm_compute; reflexivity|].
  vm_compute. split; reflexivity.
Qed.

(** With a last factor below 1 the factor table loses a record per simulation and
    simulation 1 is developed with figures of simulation 0. *)
Definition leak_rng3 (z : Qc) (l : list val) : (nat -> val) * (list (val * val) -> nat -> val) :=
  (fun k => if k <? 9 then Fin z else Fin 0%Qc, snd (mean_rng l)).
Theorem C42_leak_refuted : exists b b',
  boot_cl ex_gm ex_rt dn [2; 1; 0] [2; 1; 0] (a2aind_init dn_m) 2 false (leak_rng3 0) = Ok b /\
  boot_cl ex_gm ex_rt dn [2; 1; 0] [2; 1; 0] (a2aind_init dn_m) 2 false (leak_rng3 1) = Ok b' /\
  (forall l k, 9 <= k -> fst (leak_rng3 0 l) k = fst (leak_rng3 1 l) k) /\
  (forall l, snd (leak_rng3 0 l) = snd (leak_rng3 1 l)) /\
  vlistb (map v_ultimate (filter (fun r => v_sim r =? 1) (o_reserves b)))
         (map v_ultimate (filter (fun r => v_sim r =? 1) (o_reserves b'))) = false.
Proof.
  eexists _, _. split; [vm_compute; reflexivity|]. split; [vm_compute; reflexivity|]. split; [|split].
  - intros l k H. simpl fst. destruct (Nat.ltb_spec k 9); [lia|auto].
  - auto.
  - vm_compute. reflexivity.
Qed.
Print Assumptions C42_leak_refuted.

(** With two origins observed at the last period the factor table gains a record for
    it, made of figures of two simulations.  (Gamma variates: 1, whatever their
    parameters.) *)
Definition tz_m : lmat := mkMat [2001; 2002; 2003; 2004]%Z [1; 2; 3]%Z
  [[vz 100; vz 150; vz 165]; [vz 110; vz 168; vz 190]; [vz 120; vz 170; NaN]; [vz 130; NaN; NaN]].
Definition tz : tri := mkTri tz_m "origin" "dev" "value".
Definition tz_rng (z : Qc) (l : list val) : (nat -> val) * (list (val * val) -> nat -> val) :=
  (fun k => if k <? 12 then Fin z else Fin 0%Qc, fun _ _ => Fin 1%Qc).
Theorem C42_two_complete_origins_refuted : exists b b',
  clvi tz_m = Ok [3; 2; 1] /\ rlvi tz_m = Ok [2; 2; 1; 0] /\
  boot_cl ex_gm ex_rt tz [3; 2; 1] [2; 2; 1; 0] (a2aind_init tz_m) 2 false (tz_rng 0) = Ok b /\
  boot_cl ex_gm ex_rt tz [3; 2; 1] [2; 2; 1; 0] (a2aind_init tz_m) 2 false (tz_rng 1) = Ok b' /\
  (forall l k, 12 <= k -> fst (tz_rng 0 l) k = fst (tz_rng 1 l) k) /\
  (forall l, snd (tz_rng 0 l) = snd (tz_rng 1 l)) /\
  vlistb (map v_ultimate (filter (fun r => v_sim r =? 1) (o_reserves b)))
         (map v_ultimate (filter (fun r => v_sim r =? 1) (o_reserves b'))) = false.
Proof.
  eexists _, _. split; [vm_compute; reflexivity|]. split; [vm_compute; reflexivity|].
  split; [vm_compute; reflexivity|]. split; [vm_compute; reflexivity|]. split; [|split].
  - intros l k H. simpl fst. destruct (Nat.ltb_spec k 12); [lia|auto].
  - auto.
  - vm_compute. reflexivity.
Qed.
Print Assumptions C42_two_complete_origins_refuted.

(** ** C43.  For every triangle, every draw: one record per origin and simulation;
    reserve = ultimate - latest whenever both are numbers; the oldest origin's reserve
    is 0. *)
Theorem C43_reserves_partial :
  forall (gm : list val -> val) (rt : val -> val) (m : lmat) (v : string) (cl rl : list nat)
         (ind : list (list val)) (sims : nat) (par : bool)
         (rng : list val -> (nat -> val) * (list (val * val) -> nat -> val)) (b : boot_result),
  increasing (m_idx m) -> increasing (m_cols m) -> m_cols m <> [] ->
  boot_cl gm rt (mkTri m "origin" "dev" v) cl rl ind sims par rng = Ok b ->
  map (fun r => (v_o r, v_sim r)) (o_reserves b)
    = flat_map (fun o => map (fun s => (o, s)) (seq 0 sims)) (m_idx m) /\
  (forall r, In r (o_reserves b) -> forall u l, v_ultimate r = Fin u -> v_latest r = Fin l ->
     v_reserve r = Fin (u - l)%Qc) /\
  (forall r, In r (o_reserves b) -> v_o r = nth 0 (m_idx m) 0%Z ->
     v_latest r = v_ultimate r /\ v_reserve r = Fin 0%Qc).
Proof. exact c43. Qed.
Print Assumptions C43_reserves_partial.

(** Every record, missing ultimates included: the reserve is ultimate - latest, or 0 where
    that is not a number. *)
Theorem C43_reserve_of_every_record :
  forall (gm : list val -> val) (rt : val -> val) (m : lmat) (v : string) (cl rl : list nat)
         (ind : list (list val)) (sims : nat) (par : bool)
         (rng : list val -> (nat -> val) * (list (val * val) -> nat -> val)) (b : boot_result),
  increasing (m_idx m) -> increasing (m_cols m) -> m_cols m <> [] ->
  boot_cl gm rt (mkTri m "origin" "dev" v) cl rl ind sims par rng = Ok b ->
  forall r, In r (o_reserves b) ->
    v_reserve r = match vsub (v_ultimate r) (v_latest r) with NaN => Fin 0%Qc | x => x end.
Proof. exact c43_exact. Qed.
Print Assumptions C43_reserve_of_every_record.

Example C43_nonvacuous : increasing (m_idx bt_m) /\ increasing (m_cols bt_m) /\ m_cols bt_m <> [] /\
  match ex_boot 2 with
  | Ok b => List.length (o_reserves b) = 8 /\
            match nth 7 (map v_reserve (o_reserves b)) NaN with Fin q => qceqb q 0 = false | _ => False end
  | Err _ => False
  end.
Proof.
  split; [apply bt_regular|]. split; [apply bt_regular|]. split; [discriminate|]. vm_compute. split; reflexivity.
Qed.

(** With a factor below 1 the oldest origin's ultimate is missing while its reserve
    is 0. *)
Theorem C43_missing_ultimate_refuted : exists b r,
  boot_cl ex_gm ex_rt dn [2; 1; 0] [2; 1; 0] (a2aind_init dn_m) 2 false mean_rng = Ok b /\
  In r (o_reserves b) /\ v_ultimate r = NaN /\ v_reserve r = Fin 0%Qc.
Proof. eexists _, _. split; [vm_compute; reflexivity|]. split; [left; reflexivity|]. split; vm_compute; reflexivity. Qed.
Print Assumptions C43_missing_ultimate_refuted.
