(** C65, C66: the distribution by origin and the residual statistics of a bootstrap
    result. *)

From Coq Require Import String QArith Qcanon ZArith List Bool Lia.
From Verif Require Import Val Frame Triangle A2A Base Mack Boot QcLib Dist Spec Spec2 ExTri PropsBoot PropsBootSum
  BootDet SpecBootDet BootDetClaims.
Import ListNotations.
Open Scope string_scope.
Open Scope list_scope.
Open Scope nat_scope.

(** ** C65.  [origin_dist] has, for each simulation in order, one row per origin in order
    and the total; an origin's row shows the figures of [reserve_dist], with 0 where
    they are missing. *)
Theorem C65_rows :
  forall (gm : list val -> val) (rt : val -> val) (m : lmat) (v : string) (cl rl : list nat)
         (ind : list (list val)) (sims : nat) (par : bool)
         (rng : list val -> (nat -> val) * (list (val * val) -> nat -> val)) (b : boot_result),
  increasing (m_idx m) -> increasing (m_cols m) -> m_cols m <> [] -> m_idx m <> [] ->
  boot_cl gm rt (mkTri m "origin" "dev" v) cl rl ind sims par rng = Ok b ->
  map (fun d => (d_sim d, d_o d)) (origin_dist (o_reserves b))
    = flat_map (fun s => map (fun o => (s, Some o)) (m_idx m) ++ [(s, None)]) (seq 0 sims) /\
  (forall r, In r (o_reserves b) ->
     let shown x := match x with NaN => Fin 0%Qc | _ => x end in
     In (mkD (v_sim r) (Some (v_o r)) (shown (v_latest r)) (shown (v_ultimate r)) (shown (v_reserve r)))
        (origin_dist (o_reserves b))).
Proof. exact c65_rows. Qed.
Print Assumptions C65_rows.

(** When no figure is missing ([u i s], [l i s]: ultimate and latest of the i-th origin
    in simulation s): the whole table.  In every row, total included, reserve =
    ultimate - latest; the totals are the sums over the origins. *)
Theorem C65_table :
  forall (gm : list val -> val) (rt : val -> val) (m : lmat) (v : string) (cl rl : list nat)
         (ind : list (list val)) (sims : nat) (par : bool)
         (rng : list val -> (nat -> val) * (list (val * val) -> nat -> val)) (b : boot_result) (u l : nat -> nat -> Qc),
  increasing (m_idx m) -> increasing (m_cols m) -> m_cols m <> [] -> m_idx m <> [] ->
  boot_cl gm rt (mkTri m "origin" "dev" v) cl rl ind sims par rng = Ok b ->
  let n := List.length (m_idx m) in
  (forall i s, i < n -> s < sims -> exists r, In r (o_reserves b) /\ v_o r = nth i (m_idx m) 0%Z /\ v_sim r = s /\
     v_ultimate r = Fin (u i s) /\ v_latest r = Fin (l i s)) ->
  origin_dist (o_reserves b) = flat_map (fun s =>
      map (fun i => mkD s (Some (nth i (m_idx m) 0%Z)) (Fin (l i s)) (Fin (u i s)) (Fin (u i s - l i s)%Qc)) (seq 0 n) ++
      [mkD s None (Fin (sumf 0 n (fun i => l i s))) (Fin (sumf 0 n (fun i => u i s)))
           (Fin (sumf 0 n (fun i => u i s) - sumf 0 n (fun i => l i s))%Qc)]) (seq 0 sims).
Proof. exact c65. Qed.
Print Assumptions C65_table.

(** The two simulations of [C63_nonvacuous], whose figures are all numbers. *)
Example C65_nonvacuous : increasing (m_idx bt_m) /\ increasing (m_cols bt_m) /\ m_cols bt_m <> [] /\ m_idx bt_m <> [] /\
  exists b, two_sims = Ok b /\
  (forall i s, i < List.length (m_idx bt_m) -> s < 2 -> exists r, In r (o_reserves b) /\ v_o r = nth i (m_idx bt_m) 0%Z /\
     v_sim r = s /\ v_ultimate r = Fin (two_u i s) /\ v_latest r = Fin (two_l i s)).
Proof.
  split; [apply bt_regular|]. split; [apply bt_regular|]. split; [discriminate|]. split; [discriminate|].
  exact (proj2 C63_nonvacuous).
Qed.

(** ** C66.  The residual statistics of a bootstrap that is not parametric, on any
    triangle with finite residuals, not all 0: both columns describe their residuals;
    the adjusted residuals are [f] times the unscaled ones, [f] being the root of the
    number of cells over the degrees of freedom; sums of squares give back the scale
    parameter.  [mode0] is the expression [stats.mode(...).mode[0]]. *)
Theorem C66_residuals_detail_partial :
  forall (gm : list val -> val) (rt : val -> val) (t : tri) (cl rl : list nat) (ind : list (list val)) (sims : nat)
         (rng : list val -> (nat -> val) * (list (val * val) -> nat -> val)) (b : boot_result)
         (mode0 : list Qc -> res Qc) (f : Qc),
  boot_cl gm rt t cl rl ind sims false rng = Ok b ->
  let residuals := List.concat (m_cells (o_resid_us b)) in
  let R := nonzero_numbers residuals in
  let cells := Z.of_nat (nbr_cells (t_mat t)) in
  (forall v, In v residuals -> v = NaN \/ exists q, v = Fin q) -> R <> [] ->
  (0 < o_dof b)%Z -> rt (Fin (qz cells / qz (o_dof b))%Qc) = Fin f -> (0 < f)%Qc ->
  (forall l, exists md, mode0 l = Ok md) ->
  exists u a, residuals_detail mode0 false b = Ok (Some (u, a)) /\
    describes u R /\ describes a (map (Qcmult f) R) /\
    (r_size a = r_size u /\ r_sum a = (f * r_sum u)%Qc /\ r_mean a = (f * r_mean u)%Qc /\
     r_skew a = r_skew u /\ r_kurt a = r_kurt u /\ (r_mean u <> 0%Qc -> r_cov a = r_cov u)) /\
    exists phi, o_scale b = Fin phi /\ r_ssqr u = (phi * qz (o_dof b))%Qc /\
      r_ssqr a = (f * f * (phi * qz (o_dof b)))%Qc /\
      ((f * f = qz cells / qz (o_dof b))%Qc -> r_ssqr a = (phi * qz cells)%Qc).
Proof. exact c66. Qed.
Print Assumptions C66_residuals_detail_partial.

(** Nothing to show for a parametric bootstrap. *)
Theorem C66_parametric : forall mode0 b, residuals_detail mode0 true b = Ok None.
Proof. reflexivity. Qed.
Print Assumptions C66_parametric.

(** With the scipy release the project pins, the property raises for every such result. *)
Theorem C66_raises_refuted :
  forall b : boot_result,
  let residuals := List.concat (m_cells (o_resid_us b)) in
  (forall v, In v residuals -> v = NaN \/ exists q, v = Fin q) -> nonzero_numbers residuals <> [] ->
  residuals_detail mode0_pinned false b = Err IndexError.
Proof. exact c66_raises. Qed.
Print Assumptions C66_raises_refuted.

Definition ok_val (v : val) : bool := match v with NaN | Fin _ => true | _ => false end.
Example C66_nonvacuous : exists b, ex_boot 2 = Ok b /\
  let residuals := List.concat (m_cells (o_resid_us b)) in
  (forall v, In v residuals -> v = NaN \/ exists q, v = Fin q) /\ 3 <= List.length (nonzero_numbers residuals) /\
  (0 < o_dof b)%Z /\ exists f, ex_rt (Fin (qz 10 / qz (o_dof b))%Qc) = Fin f /\ (0 < f)%Qc.
Proof.
  remember (ex_boot 2) as rb eqn:E.
  assert (Ch : match rb with
     | Ok b => forallb ok_val (List.concat (m_cells (o_resid_us b))) &&
               (3 <=? List.length (nonzero_numbers (List.concat (m_cells (o_resid_us b))))) && (0 <? o_dof b)%Z &&
               match ex_rt (Fin (qz 10 / qz (o_dof b))%Qc) with Fin f => qcltb 0 f | _ => false end
     | Err _ => false end = true) by (rewrite E; vm_compute; reflexivity).
  clear E. destruct rb as [b|]; [|discriminate]. exists b. split; auto. cbv zeta.
  apply andb_prop in Ch as (Ch & D). apply andb_prop in Ch as (Ch & C). apply andb_prop in Ch as (A & B).
  split; [|split; [apply Nat.leb_le; auto|split; [apply Z.ltb_lt; auto|]]].
  - intros v Hv. rewrite forallb_forall in A. specialize (A v Hv). destruct v; try discriminate; eauto.
  - destruct (ex_rt _) as [| | |f]; try discriminate. exists f. split; auto. apply qcltb_lt. auto.
Qed.
