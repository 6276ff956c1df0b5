(** C41 again: exactly when a bootstrap without noise reproduces the chain ladder. *)

From Coq Require Import String QArith Qcanon ZArith List Bool Lia.
From Verif Require Import Val Frame Triangle A2A Base Mack Boot QcLib Spec Spec2 ExTri BootSim PropsBoot PropsSim PropsBelowOne NoiseIff.
Import ListNotations.
Open Scope string_scope.
Open Scope list_scope.
Open Scope nat_scope.

(** Every residual drawn is 0 and every gamma variate equals its mean: every simulated
    ultimate is the chain ladder ultimate of its origin if and only if no development
    factor is below 1. *)
Theorem C41_reproduced_iff :
  forall (gm : list val -> val) (rt : val -> val) (m : lmat) (n : nat) (C : nat -> nat -> Qc) (cl rl : list nat)
         (ind : list (list val)) (w : nat -> nat -> bool) (sims : nat) (par : bool)
         (rng : list val -> (nat -> val) * (list (val * val) -> nat -> val)) (b : boot_result) (c : Qc),
  regular m n C -> positive n C -> 2 < n -> tail_fits (m_cols m) ->
  (forall i j, i + j < n - 1 -> cell ind i j = Fin (if w i j then 1 else 0)%Qc) ->
  (forall j, j < n - 1 -> w (n - 2 - j) j = true) ->
  clvi m = Ok cl -> rlvi m = Ok rl -> root_like rt ->
  let t := mkTri m "origin" "dev" "value" in
  nth 0 (m_cols m) 0%Z = 1%Z -> 0 < sims ->
  (forall l k, fst (rng l) k = Fin 0%Qc) ->
  (forall l ps k, snd (rng l) ps k = vmul (fst (nth k ps (NaN, NaN))) (snd (nth k ps (NaN, NaN)))) ->
  boot_cl gm rt t cl rl ind sims par rng = Ok b -> o_scale b = Fin c -> (0 < c)%Qc ->
  exists r, base_cl gm t cl ind (SelLabel "all-weighted") (Fin 1%Qc) = (SelLabel "all-weighted", Ok r) /\
    ((forall row x, In row (c_rows r) -> In x (o_reserves b) -> v_o x = s_origin row -> v_ultimate x = s_ultimate row) <->
     (forall j, j < n - 1 -> (1 <= vol_factor n C j)%Qc)).
Proof. exact c41_iff. Qed.
Print Assumptions C41_reproduced_iff.

(** [C41_nonvacuous] is a triangle with factors of at least 1; here the first is below 1. *)
Example C41_iff_nonvacuous : regular dip_m 4 dip_C /\ positive 4 dip_C /\ tail_fits (m_cols dip_m) /\ (vol_factor 4 dip_C 0 < 1)%Qc /\
  clvi dip_m = Ok [3; 2; 1; 0] /\ rlvi dip_m = Ok [3; 2; 1; 0] /\ nth 0 (m_cols dip_m) 0%Z = 1%Z /\
  (forall l k, fst (mean_rng l) k = Fin 0%Qc) /\
  (forall l ps k, snd (mean_rng l) ps k = vmul (fst (nth k ps (NaN, NaN))) (snd (nth k ps (NaN, NaN)))) /\
  match boot_cl ex_gm ex_rt (mkTri dip_m "origin" "dev" "value") [3; 2; 1; 0] [3; 2; 1; 0] ex_ind 2 false mean_rng with
  | Ok b => qcltb 0 (fq (o_scale b)) = true /\ o_scale b = Fin (fq (o_scale b)) /\
            map (fun r => veqb (v_ultimate r) (Fin 0%Qc)) (o_reserves b) = [false; false; false; false; true; true; false; false]
  | Err _ => False
  end.
Proof.
  split; [exact dip_regular|]. split; [exact (proj1 (proj2 C97_nonvacuous))|]. split; [exact bt_spaced|].
  split; [exact (proj1 (proj2 (proj2 C97_nonvacuous)))|]. split; [reflexivity|]. split; [reflexivity|]. split; [reflexivity|].
  split; [intros l k; reflexivity|]. split; [intros l ps k; reflexivity|]. vm_compute. repeat split.
Qed.
