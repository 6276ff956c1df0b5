(** C62, C63: the summary of the bootstrap chain ladder against its reserve
    distribution. *)

From Coq Require Import String QArith Qcanon Qreals Reals ZArith List Bool Lia.
From Verif Require Import Val Frame Triangle A2A Base Mack Boot Dist QcLib Spec Spec2 ExTri PropsBoot
  BootSum SpecBootSum BootSumClaims.
Import ListNotations.
Open Scope string_scope.
Open Scope list_scope.
Open Scope nat_scope.

(** ** C62.  With two or more simulations, [x i s] being the reserve of the i-th origin
    in simulation s: the standard error of an origin is the sample standard deviation of
    its reserves, that of the total the root of the sum of all covariances between
    origins, at most the sum of the origins' standard errors; the oldest origin's is 0;
    cv is standard error over reserve. *)
Theorem C62_std_errors :
  forall (gm : list val -> val) (rt : val -> val) (m : lmat) (n : nat) (C : nat -> nat -> Qc) (cl rl : list nat)
         (ind : list (list val)) (sims : nat) (par : bool)
         (rng : list val -> (nat -> val) * (list (val * val) -> nat -> val)) (b : boot_result) (x : nat -> nat -> Qc),
  regular m n C -> 0 < n ->
  boot_cl gm rt (mkTri m "origin" "dev" "value") cl rl ind sims par rng = Ok b ->
  (forall i s, i < n -> s < sims ->
     In (nth i (m_idx m) 0%Z, s, Fin (x i s)) (map (fun r => (v_o r, v_sim r, v_reserve r)) (o_reserves b))) ->
  2 <= sims ->
  let sd i := sqrt (Q2R (covariance sims (x i) (x i))) in
  let sd_total := sqrt (Q2R (sumf 0 n (fun i => sumf 0 n (fun k => covariance sims (x i) (x k))))) in
  map w_origin (boot_table b) = map Some (m_idx m) ++ [None] /\
  map w_std_error (boot_table b) = map (fun i => FR (sd i)) (seq 0 n) ++ [FR sd_total] /\
  (forall r se q, In r (boot_table b) -> w_std_error r = FR se -> w_reserve r = Fin q -> q <> 0%Qc ->
     w_cv r = FR (se / Q2R q)) /\
  sd 0 = 0%R /\ (sd_total <= fold_right Rplus 0 (map sd (seq 0 n)))%R.
Proof. exact c62. Qed.
Print Assumptions C62_std_errors.

(** One simulation has no standard errors. *)
Theorem C62_one_simulation :
  forall (gm : list val -> val) (rt : val -> val) (m : lmat) (n : nat) (C : nat -> nat -> Qc) (cl rl : list nat)
         (ind : list (list val)) (par : bool)
         (rng : list val -> (nat -> val) * (list (val * val) -> nat -> val)) (b : boot_result) (x : nat -> Qc),
  regular m n C -> 0 < n ->
  boot_cl gm rt (mkTri m "origin" "dev" "value") cl rl ind 1 par rng = Ok b ->
  (forall i, i < n -> In (nth i (m_idx m) 0%Z, Fin (x i)) (map (fun r => (v_o r, v_reserve r)) (o_reserves b))) ->
  map w_origin (boot_table b) = map Some (m_idx m) ++ [None] /\
  forall r, In r (boot_table b) -> w_std_error r = FNaN /\ w_cv r = FNaN.
Proof. exact c62_one. Qed.
Print Assumptions C62_one_simulation.

(** Two different simulations of a triangle of four origins. *)
Definition two_sims := boot_cl ex_gm ex_rt bt [3; 2; 1; 0] [3; 2; 1; 0] ex_ind 2 false (leak_rng 1).
Definition two_x (i s : nat) : Qc :=
  nth (2 * i + s) [0; 0; Q2Qc (2814 # 181); Q2Qc 10; Q2Qc (20190 # 491); Q2Qc (4380 # 163);
                   Q2Qc (1234954341 # 7642906); Q2Qc (173667 # 1630)]%Qc 0%Qc.
Example C62_nonvacuous : regular bt_m 4 ex_C /\ exists b, two_sims = Ok b /\
  (forall i s, i < 4 -> s < 2 ->
     In (nth i (m_idx bt_m) 0%Z, s, Fin (two_x i s)) (map (fun r => (v_o r, v_sim r, v_reserve r)) (o_reserves b))) /\
  qcltb 0 (covariance 2 (two_x 3) (two_x 3)) = true.
Proof.
  split; [apply bt_regular|]. eexists. split; [vm_compute; reflexivity|]. split; [|vm_compute; reflexivity].
  intros i s Hi Hs.
  match goal with |- In _ ?l => assert (E : l = flat_map (fun i => map (fun s => (nth i (m_idx bt_m) 0%Z, s, Fin (two_x i s))) (seq 0 2)) (seq 0 4)) end.
  { assert (L : forall a b : list (Z * nat * val), map fst a = map fst b -> vlistb (map snd a) (map snd b) = true -> a = b).
    { induction a as [|[p v] a IH]; intros [|[p' v'] b] E1 E2; try discriminate; auto. cbn [map fst snd] in *.
      injection E1 as E0 E1. unfold vlistb in *. cbn [listb] in E2. apply andb_prop in E2 as (Ea & Eb). apply vsame_eq in Ea.
      subst. f_equal. apply IH; auto. }
    apply L; vm_compute; reflexivity. }
  rewrite E. apply in_flat_map. exists i. split; [apply in_seq; lia|]. apply in_map_iff. exists s. split; auto. apply in_seq. lia.
Qed.

(** ** C63.  [u i s], [l i s]: ultimate and (simulated) latest of origin i in simulation
    s.  The summary shows the observed latest values and the mean ultimates; its
    reserve is their difference: the mean of the simulated reserves plus the amount by
    which the mean simulated latest exceeds the observed one.  The total row sums the
    columns. *)
Theorem C63_point_estimates_partial :
  forall (gm : list val -> val) (rt : val -> val) (m : lmat) (n : nat) (C : nat -> nat -> Qc) (cl rl : list nat)
         (ind : list (list val)) (sims : nat) (par : bool)
         (rng : list val -> (nat -> val) * (list (val * val) -> nat -> val)) (b : boot_result) (u l : nat -> nat -> Qc),
  regular m n C -> 0 < n ->
  boot_cl gm rt (mkTri m "origin" "dev" "value") cl rl ind sims par rng = Ok b -> 0 < sims ->
  (forall i s, i < n -> s < sims -> exists r, In r (o_reserves b) /\ v_o r = nth i (m_idx m) 0%Z /\ v_sim r = s /\
     v_ultimate r = Fin (u i s) /\ v_latest r = Fin (l i s)) ->
  let latest i := C i (n - 1 - i) in
  let ultimate i := if i =? 0 then latest 0 else sample_mean sims (u i) in
  let reserve i := if i =? 0 then 0%Qc
                   else (sample_mean sims (fun s => u i s - l i s) + (sample_mean sims (l i) - latest i))%Qc in
  (forall i s, i < n -> s < sims -> exists r, In r (o_reserves b) /\ v_o r = nth i (m_idx m) 0%Z /\ v_sim r = s /\
     v_reserve r = Fin (u i s - l i s)%Qc) /\
  map (fun r => (fst (fst (fst r)), snd (fst (fst r)), snd (fst r), snd r)) (o_summary b)
    = map (fun i => (nth i (m_idx m) 0%Z, Fin (latest i), Fin (ultimate i), Fin (reserve i))) (seq 0 n) /\
  o_total b = (Fin (sumf 0 n latest), Fin (sumf 0 n ultimate), Fin (sumf 0 n reserve)).
Proof. exact c63. Qed.
Print Assumptions C63_point_estimates_partial.

(** The full property, that the reserve shown is the mean of the simulated reserves, is
    false: with one simulation, residuals drawn from the sampling distribution (the same
    one each time), the only simulated reserve of origin 2002 is not the reserve of the
    summary. *)
Definition first_rng (l : list val) : (nat -> val) * (list (val * val) -> nat -> val) :=
  (fun _ => nth 0 l NaN, snd (mean_rng l)).
Theorem C63_mean_reserve_refuted : exists b x y,
  boot_cl ex_gm ex_rt bt [3; 2; 1; 0] [3; 2; 1; 0] ex_ind 1 false first_rng = Ok b /\
  map v_reserve (filter (fun r => (v_o r =? 2002)%Z) (o_reserves b)) = [Fin x] /\
  nth 1 (map (fun r => (fst (fst (fst r)), snd r)) (o_summary b)) (0%Z, NaN) = (2002%Z, Fin y) /\ (y < x)%Qc.
Proof.
  remember (boot_cl ex_gm ex_rt bt [3; 2; 1; 0] [3; 2; 1; 0] ex_ind 1 false first_rng) as rb eqn:E.
  assert (Ch : match rb with
     | Ok b => match map v_reserve (filter (fun r => (v_o r =? 2002)%Z) (o_reserves b)),
                     nth 1 (map (fun r => (fst (fst (fst r)), snd r)) (o_summary b)) (0%Z, NaN) with
               | [Fin x], (2002%Z, Fin y) => qcltb y x | _, _ => false end
     | Err _ => false end = true) by (rewrite E; vm_compute; reflexivity).
  clear E. destruct rb as [b|]; [|discriminate]. exists b.
  destruct (map v_reserve _) as [|[| | |x] [|? ?]]; try discriminate.
  destruct (nth 1 _ _) as (z, [| | |y]); try (destruct z as [|p|p]; try discriminate; repeat (destruct p as [p|p|]; try discriminate)).
  exists x, y. repeat split. apply qcltb_lt. auto.
Qed.
Print Assumptions C63_mean_reserve_refuted.

Definition two_u (i s : nat) : Qc :=
  nth (2 * i + s) [Q2Qc (571 # 2); Q2Qc 189; Q2Qc (114771 # 362); Q2Qc 210; Q2Qc (109061 # 491); Q2Qc (23940 # 163);
                   Q2Qc (1364571232 # 3821453); Q2Qc (385567 # 1630)]%Qc 0%Qc.
Definition two_l (i s : nat) : Qc :=
  nth (2 * i + s) [Q2Qc (571 # 2); Q2Qc 189; Q2Qc (603 # 2); Q2Qc 200; Q2Qc 181; Q2Qc 120; Q2Qc (391 # 2); Q2Qc 130]%Qc 0%Qc.
Example C63_nonvacuous : regular bt_m 4 ex_C /\ exists b, two_sims = Ok b /\
  (forall i s, i < 4 -> s < 2 -> exists r, In r (o_reserves b) /\ v_o r = nth i (m_idx bt_m) 0%Z /\ v_sim r = s /\
     v_ultimate r = Fin (two_u i s) /\ v_latest r = Fin (two_l i s)).
Proof.
  split; [apply bt_regular|]. eexists. split; [vm_compute; reflexivity|].
  intros i s Hi Hs. cbn [o_reserves].
  match goal with |- exists r, In r ?l /\ _ => set (rs := l); exists (nth (2 * i + s) rs (mkR 0 0 NaN NaN NaN)) end.
  assert (V : vlistb (map v_ultimate rs) (map (fun k => Fin (two_u (k / 2) (k mod 2))) (seq 0 8)) = true) by (vm_compute; reflexivity).
  assert (W : vlistb (map v_latest rs) (map (fun k => Fin (two_l (k / 2) (k mod 2))) (seq 0 8)) = true) by (vm_compute; reflexivity).
  apply vlistb_eq in V, W.
  assert (L : List.length rs = 8) by reflexivity.
  assert (K : (2 * i + s) / 2 = i /\ (2 * i + s) mod 2 = s).
  { rewrite (Nat.add_comm _ s), (Nat.mul_comm 2 i). rewrite Nat.div_add, Nat.mod_add by lia.
    rewrite Nat.div_small, Nat.mod_small by lia. lia. }
  assert (Hk : 2 * i + s < 8) by lia.
  split; [apply nth_In; rewrite L; auto|]. split; [|split; [|split]].
  - do 4 (destruct i as [|i]; [do 2 (destruct s as [|s]; [reflexivity|]); lia|]). lia.
  - do 4 (destruct i as [|i]; [do 2 (destruct s as [|s]; [reflexivity|]); lia|]). lia.
  - rewrite <- (map_nth v_ultimate), V. cbn [v_ultimate].
    rewrite (nth_indep _ _ (Fin (two_u (0 / 2) (0 mod 2)))) by (rewrite map_length, seq_length; auto).
    rewrite (map_nth (fun k => Fin (two_u (k / 2) (k mod 2)))), seq_nth by auto. cbn [plus]. destruct K as (-> & ->). auto.
  - rewrite <- (map_nth v_latest), W. cbn [v_latest].
    rewrite (nth_indep _ _ (Fin (two_l (0 / 2) (0 mod 2)))) by (rewrite map_length, seq_length; auto).
    rewrite (map_nth (fun k => Fin (two_l (k / 2) (k mod 2)))), seq_nth by auto. cbn [plus]. destruct K as (-> & ->). auto.
Qed.
